(** Rounding errors of the volume test for local dimensions (C74). *)
From Coq Require Import ZArith Reals Psatz List Permutation Machin Ratan.
From Flocq Require Import Core BinarySingleNaN.
From Verif Require Import Base BaseFacts CoordSys CoordSysR Graph SpecGraph Dimension Float FloatFacts FloatVector FloatVectorFacts FloatMin FloatCell SpecFloatCell FloatCellNum FloatDistNum FloatStepNum FloatStepFacts PropFloatVector
  FloatCluster SpecFloatCluster FloatIdentify SpecFloatIdentify FloatSumFacts FloatAverage FloatIdentifyFacts FloatLineNum SpecFloatDim VolumeReal.
From Coq Require Import Lra.
Import ListNotations.
Open Scope list_scope.
Open Scope R_scope.

(** ** pi *)
Lemma pi_bounds : 3.14159265 <= PI <= 3.14159266.
Proof. destruct (PI_2_3_7_ineq 5) as (A & B). cbn [Nat.mul Nat.add sum_f_R0] in A, B. unfold tg_alt, PI_2_3_7_tg, Ratan_seq in A, B.
  assert (I : forall n, INR n = IZR (Z.of_nat n)) by (intros n; apply INR_IZR_INZ). rewrite !I in A; rewrite !I in B. cbn [Nat.mul Nat.add Z.of_nat Pos.of_succ_nat Pos.succ] in A, B.
  assert (P3 : forall n, (/ 3) ^ n = / IZR (3 ^ Z.of_nat n)) by (intros n; rewrite pow_inv, pow_IZR; reflexivity). assert (P7 : forall n, (/ 7) ^ n = / IZR (7 ^ Z.of_nat n)) by (intros n; rewrite pow_inv, pow_IZR; reflexivity).
  rewrite !P3, !P7 in A; rewrite !P3, !P7 in B. assert (PM : forall n, (-1) ^ n = IZR ((-1) ^ Z.of_nat n)) by (intros n; apply pow_IZR). rewrite !PM in A; rewrite !PM in B. cbv [Z.of_nat Pos.of_succ_nat Pos.succ Z.pow Z.pow_pos Pos.iter Z.mul Pos.mul Pos.add Z.opp] in A, B. split; lra. Qed.
Lemma np_pi_val : fin np_pi /\ Rabs (val np_pi - PI) <= / 50000000.
Proof. destruct (of_dyadic_val 884279719003555 (-48) ltac:(lia) ltac:(lia)) as (F & V). split; [exact F|]. unfold np_pi. rewrite V. pose proof pi_bounds. change (bpow radix2 (-48)) with (/ 281474976710656). apply abs_le. lra. Qed.
Definition eps8 : R := / 100000000.
Lemma some_inj {A} (x y : A) : Some x = Some y -> x = y. Proof. intros [= H]. exact H. Qed.
Lemma exact_val k e E : fexact_value k = Some e -> exact_value k = Some E -> fin e /\ Rabs (val e - E) <= eps8 /\ / 8 <= E <= / 2.
Proof. pose proof pi_bounds as PB. destruct np_pi_val as (Fp & Vp). apply abs_le in Vp. unfold eps8. set (u := pw (-53)). assert (U : 0 < u <= / 1000000000000000) by (split; [apply pw_pos|]; unfold u; change (pw (-53)) with (/ 9007199254740992); lra). assert (T : 0 < pw (-1075) <= / 1000000000000000) by (split; [apply pw_pos|eapply Rle_trans; [apply (pw_le (-1075) (-53)); lia|apply U]]).
  assert (Cs : (k = 1 \/ k = 2 \/ k = 3)%nat \/ fexact_value k = None) by (destruct k as [|[|[|[|k]]]]; [right; reflexivity|left; lia|left; lia|left; lia|right; reflexivity]). intros He HE. destruct Cs as [Cs|Cs]; [|rewrite Cs in He; discriminate He].
  destruct Cs as [-> | [-> | -> ] ]; cbn [exact_value] in HE; injection HE as <-; apply some_inj in He; rewrite <- He; clear He e.
  - destruct const_vals as (_ & _ & _ & (Fh & Vh) & _). split; auto. rewrite Vh. split; [apply abs_le; lra|lra].
  - destruct (of_int_val 9 ltac:(lia)) as (F9 & V9). destruct (of_int_val 8 ltac:(lia)) as (F8 & V8). destruct (fmul_val (of_int 9) np_pi 20 ltac:(lia) F9 Fp) as (Fm & Vm); [rewrite V9; change (bpow radix2 20) with 1048576; apply abs_le; lra|]. rewrite V9 in Vm.
    pose proof (rnd_rel (9 * val np_pi)) as R1. rewrite <- Vm in R1. rewrite (Rabs_pos_eq (9 * val np_pi)) in R1 by lra. fold u in R1. set (m := fmul (of_int 9) np_pi) in *. apply abs_le in R1. assert (u * (9 * val np_pi) <= / 1000000000000000 * 40) by (apply Rmult_le_compat; lra).
    assert (Bm : 28.2743336 <= val m <= 28.2743342) by lra. assert (Em : Rabs (val m - 9 * PI) <= / 5000000) by (apply abs_le; lra).
    assert (Q : Rabs (8 / val m - 8 / (9 * PI)) <= / 400000000).
    { replace (8 / val m - 8 / (9 * PI)) with (8 * (9 * PI - val m) / (val m * (9 * PI))) by (field; lra). unfold Rdiv. rewrite Rabs_mult, Rabs_mult, (Rabs_pos_eq 8) by lra. rewrite Rabs_inv. rewrite (Rabs_pos_eq (val m * (9 * PI))) by (apply Rmult_le_pos; lra). rewrite <- Rabs_Ropp. replace (- (9 * PI - val m)) with (val m - 9 * PI) by ring.
      assert (D : 784 <= val m * (9 * PI)) by (replace 784 with (28 * 28) by lra; apply Rmult_le_compat; lra). assert (I : / (val m * (9 * PI)) <= / 784) by (apply Rinv_le; lra). assert (0 <= / (val m * (9 * PI))) by (left; apply Rinv_0_lt_compat; lra). apply Rle_trans with (8 * / 5000000 * / 784); [|lra]. apply Rmult_le_compat; auto; [apply Rmult_le_pos; [lra|apply Rabs_pos]|lra]. }
    assert (Bq : / 4 <= 8 / (9 * PI) <= 3 / 10). { split; [apply (Rmult_le_reg_r (9 * PI)); [lra|]; unfold Rdiv; rewrite Rmult_assoc, Rinv_l by lra; lra|apply (Rmult_le_reg_r (9 * PI)); [lra|]; unfold Rdiv at 1; rewrite Rmult_assoc, Rinv_l by lra; lra]. }
    apply abs_le in Q. destruct (fdiv_val (of_int 8) m 20 ltac:(lia) F8 Fm) as (Fd & Vd); [lra|rewrite V8; change (bpow radix2 20) with 1048576; apply abs_le; lra|]. rewrite V8 in Vd. split; [exact Fd|]. pose proof (rnd_rel (8 / val m)) as R2. rewrite <- Vd in R2. rewrite (Rabs_pos_eq (8 / val m)) in R2 by lra. fold u in R2. apply abs_le in R2.
    assert (u * (8 / val m) <= / 1000000000000000 * 1) by (apply Rmult_le_compat; lra). split; [apply abs_le; lra|lra].
  - destruct (of_int_val 27 ltac:(lia)) as (F9 & V9). destruct (of_int_val 512 ltac:(lia)) as (F8 & V8). destruct (fmul_val (of_int 27) np_pi 20 ltac:(lia) F9 Fp) as (Fm & Vm); [rewrite V9; change (bpow radix2 20) with 1048576; apply abs_le; lra|]. rewrite V9 in Vm.
    pose proof (rnd_rel (27 * val np_pi)) as R1. rewrite <- Vm in R1. rewrite (Rabs_pos_eq (27 * val np_pi)) in R1 by lra. fold u in R1. set (m := fmul (of_int 27) np_pi) in *. apply abs_le in R1. assert (u * (27 * val np_pi) <= / 1000000000000000 * 100) by (apply Rmult_le_compat; lra).
    destruct (fdiv_val m (of_int 512) 20 ltac:(lia) Fm F8) as (Fd & Vd); [rewrite V8; lra|rewrite V8; change (bpow radix2 20) with 1048576; apply abs_le; lra|]. rewrite V8 in Vd. split; [exact Fd|]. pose proof (rnd_rel (val m / 512)) as R2. rewrite <- Vd in R2. rewrite (Rabs_pos_eq (val m / 512)) in R2 by lra. fold u in R2. apply abs_le in R2.
    assert (u * (val m / 512) <= / 1000000000000000 * 1) by (apply Rmult_le_compat; lra). split; [apply abs_le; lra|lra]. Qed.

(** ** the limit *)
Section Limit.
  Variables (f : R).
  Hypothesis f_range : pw (-100) <= f <= pw 20.
  Lemma f_pos : 0 < f. Proof. pose proof (pw_pos (-100)). lra. Qed.
  Lemma pow_range k : (k <= 3)%nat -> pw (-300) <= f ^ k <= pw 60.
  Proof. intros K. pose proof f_pos as P. pose proof (pw_pos (-100)) as P1. assert (A : pw (-300) = pw (-100) ^ 3) by (cbn [pow]; rewrite Rmult_1_r, !pw_mul; reflexivity). assert (B : pw 60 = pw 20 ^ 3) by (cbn [pow]; rewrite Rmult_1_r, !pw_mul; reflexivity). 
    assert (S1 : pw (-100) <= 1) by (change 1 with (pw 0); apply pw_le; lia). assert (S2 : 1 <= pw 20) by (change 1 with (pw 0); apply pw_le; lia). rewrite A, B. split.
    - apply Rle_trans with (pw (-100) ^ k); [|apply pow_incr; lra]. destruct k as [|[|[|[|]]]]; try lia; cbn [pow]; rewrite ?Rmult_1_r; try lra.
      + assert (pw (-100) * (pw (-100) * pw (-100)) <= 1 * (1 * 1)) by (apply Rmult_le_compat; try lra; [nra|apply Rmult_le_compat; lra]). lra.
      + assert (pw (-100) * (pw (-100) * pw (-100)) <= pw (-100) * (1 * 1)) by (apply Rmult_le_compat_l; try lra; apply Rmult_le_compat; lra). lra.
      + apply Rmult_le_compat_l; try lra. assert (pw (-100) * pw (-100) <= 1 * pw (-100)) by (apply Rmult_le_compat_r; lra). lra.
    - apply Rle_trans with (pw 20 ^ k); [apply pow_incr; lra|]. apply Rle_pow; auto. Qed.
  Lemma tiny_pow k : (k <= 3)%nat -> pw (-1075) <= pw (-60) * f ^ k /\ 0 < f ^ k.
  Proof. intros K. destruct (pow_range k K) as (A & _). split; [|pose proof (pw_pos (-300)); lra]. apply Rle_trans with (pw (-60) * pw (-300)); [rewrite pw_mul; apply pw_le; lia|]. apply Rmult_le_compat_l; [left; apply pw_pos|exact A]. Qed.
  Lemma lim_accurate k p e E : (k <= 3)%nat -> fin p -> Rabs (val p - f ^ k) <= pw (-50) * f ^ k -> fin e -> Rabs (val e - E) <= eps8 -> / 8 <= E <= / 2 ->
    let lim := fdiv (fmul p e) dtwo in fin lim /\ Rabs (val lim - f ^ k * E / 2) <= 2 * eps8 * f ^ k.
  Proof. intros K Fp Ep Fe Ee BE lim. destruct (tiny_pow k K) as (T & F0). destruct (pow_range k K) as (_ & FU). set (F := f ^ k) in *. clearbody F. unfold eps8 in *. pose proof (pw_pos (-1075)) as T0.
    assert (U : 0 < pw (-50) <= / 1000000000000) by (split; [apply pw_pos|]; change (pw (-50)) with (/ 1125899906842624); lra). assert (U3 : 0 < pw (-53) <= / 1000000000000) by (split; [apply pw_pos|]; change (pw (-53)) with (/ 9007199254740992); lra). assert (U6 : pw (-60) <= / 1000000000000) by (change (pw (-60)) with (/ 1152921504606846976); lra).
    assert (A1 : pw (-50) * F <= / 1000000000000 * F) by (apply Rmult_le_compat_r; lra). assert (A2 : pw (-60) * F <= / 1000000000000 * F) by (apply Rmult_le_compat_r; lra). apply abs_le in Ep, Ee.
    assert (Bp : 0 <= val p <= 2 * F) by lra. assert (Be : 0 <= val e <= 1) by lra. assert (Pr : 0 <= val p * val e <= 2 * F) by (split; [apply Rmult_le_pos; lra|]; replace (2 * F) with (2 * F * 1) by ring; apply Rmult_le_compat; lra).
    assert (Er : Rabs (val p * val e - F * E) <= / 1000000000000 * F + / 100000000 * F).
    { replace (val p * val e - F * E) with ((val p - F) * val e + F * (val e - E)) by ring. eapply Rle_trans; [apply Rabs_triang|]. apply Rplus_le_compat; rewrite Rabs_mult.
      - replace (/ 1000000000000 * F) with (/ 1000000000000 * F * 1) by ring. apply Rmult_le_compat; auto using Rabs_pos; apply abs_le; lra.
      - rewrite Rmult_comm, (Rabs_pos_eq F) by lra. apply Rmult_le_compat_r; [lra|]. apply abs_le. lra. }
    assert (U60 : 2 * F <= pw 61) by (change 61%Z with (60 + 1)%Z; rewrite pow_succ; lra). destruct (fmul_val p e 61 ltac:(lia) Fp Fe) as (Fm & Vm); [rewrite Rabs_pos_eq by lra; lra|]. pose proof (rnd_rel (val p * val e)) as R1. rewrite <- Vm in R1. rewrite (Rabs_pos_eq (val p * val e)) in R1 by lra. set (m := fmul p e) in *.
    assert (A3 : pw (-53) * (val p * val e) <= / 1000000000000 * (2 * F)) by (apply Rmult_le_compat; lra). apply abs_le in R1, Er. assert (Bm : 0 <= val m <= 3 * F) by (assert (/ 8 * F <= F * E) by (rewrite Rmult_comm; apply Rmult_le_compat_l; lra); lra).
    destruct const_vals as (_ & (F2 & V2) & _). destruct (fdiv_val m dtwo 61 ltac:(lia) Fm F2) as (Fl & Vl); [rewrite V2; lra|rewrite V2, Rabs_pos_eq by lra; lra|]. rewrite V2 in Vl. pose proof (rnd_rel (val m / 2)) as R2. rewrite <- Vl in R2. rewrite (Rabs_pos_eq (val m / 2)) in R2 by lra. fold lim in Fl, R2. split; [exact Fl|].
    assert (A4 : pw (-53) * (val m / 2) <= / 1000000000000 * (2 * F)) by (apply Rmult_le_compat; lra). apply abs_le in R2. apply abs_le. lra. Qed.

  (** ** products *)
  Lemma product_accurate s : (length s <= 3)%nat -> Forall (fun x => fin x /\ 0 <= val x <= 7 * f) s ->
    let w := fabs (fold_left fmul s fone) in fin w /\ 0 <= val w /\ Rabs (val w - rprod (map val s)) <= eps8 * f ^ length s.
  Proof. intros L H. pose proof f_pos as P. assert (U3 : 0 < pw (-53) <= / 1000000000000) by (split; [apply pw_pos|]; change (pw (-53)) with (/ 9007199254740992); lra). assert (U6 : pw (-60) <= / 1000000000000) by (change (pw (-60)) with (/ 1152921504606846976); lra). destruct fone_val as (F1 & V1).
    assert (K : forall x, fin x -> 0 <= val x -> fin (fabs x) /\ val (fabs x) = val x) by (intros x Fx Px; unfold fabs; split; [unfold fin; rewrite is_finite_Babs; exact Fx|rewrite B2R_Babs; apply Rabs_pos_eq; exact Px]).
    assert (One : forall x, fin x -> 0 <= val x <= 7 * f -> fin (fmul fone x) /\ val (fmul fone x) = val x).
    { intros x Fx Bx. destruct (fmul_val fone x 400 ltac:(lia) F1 Fx) as (Fm & Vm); [rewrite V1, Rmult_1_l, Rabs_pos_eq by apply Bx; apply Rle_trans with (8 * pw 20); [lra|change 8 with (pw 3); rewrite pw_mul; apply pw_le; lia]|]. split; auto. rewrite Vm, V1, Rmult_1_l. apply rnd_id, val_format. }
    unfold eps8. destruct s as [|a [|b [|c [|]]]]; cbn [length] in L; try lia; cbn [fold_left map rprod fold_right length]; cbv zeta.
    - destruct (K fone F1) as (Fk & Vk); [lra|]. split; auto. rewrite Vk, V1. cbn [pow]. split; [lra|]. apply abs_le. lra.
    - destruct (Forall_inv H) as (Fa & Ba). destruct (One a Fa Ba) as (Fo & Vo). destruct (K _ Fo) as (Fk & Vk); [lra|]. split; auto. rewrite Vk, Vo. cbn [pow]. split; [lra|]. apply abs_le. lra.
    - destruct (Forall_inv H) as (Fa & Ba). destruct (Forall_inv (Forall_inv_tail H)) as (Fb & Bb). destruct (One a Fa Ba) as (Fo & Vo). set (o := fmul fone a) in *. clearbody o.
      destruct (tiny_pow 2 ltac:(lia)) as (T & F0). destruct (pow_range 2 ltac:(lia)) as (_ & FU). assert (E2 : f ^ 2 = f * f) by ring. rewrite E2 in *. assert (B2 : 0 <= val a * val b <= 7 * f * (7 * f)) by (split; [apply Rmult_le_pos; lra|apply Rmult_le_compat; lra]). replace (7 * f * (7 * f)) with (49 * (f * f)) in B2 by ring. set (F := f * f) in *. clearbody F.
      assert (U60 : 49 * F <= pw 400) by (apply Rle_trans with (pw 6 * pw 60); [change (pw 6) with 64; lra|rewrite pw_mul; apply pw_le; lia]). destruct (fmul_val o b 400 ltac:(lia) Fo Fb) as (Fm & Vm); [rewrite Vo, Rabs_pos_eq by lra; lra|]. rewrite Vo in Vm. pose proof (rnd_rel (val a * val b)) as R1. rewrite <- Vm in R1. rewrite (Rabs_pos_eq (val a * val b)) in R1 by lra.
      assert (N : 0 <= val (fmul o b)) by (rewrite Vm; apply rnd_pos; lra). destruct (K _ Fm N) as (Fk & Vk). split; auto. rewrite Vk. split; auto. assert (A3 : pw (-53) * (val a * val b) <= / 1000000000000 * (49 * F)) by (apply Rmult_le_compat; lra). assert (A2 : pw (-60) * F <= / 1000000000000 * F) by (apply Rmult_le_compat_r; lra). apply abs_le in R1. apply abs_le. lra.
    - destruct (Forall_inv H) as (Fa & Ba). destruct (Forall_inv (Forall_inv_tail H)) as (Fb & Bb). destruct (Forall_inv (Forall_inv_tail (Forall_inv_tail H))) as (Fc & Bc). destruct (One a Fa Ba) as (Fo & Vo). set (o := fmul fone a) in *. clearbody o.
      destruct (tiny_pow 2 ltac:(lia)) as (T & F0). destruct (pow_range 2 ltac:(lia)) as (_ & FU). destruct (tiny_pow 3 ltac:(lia)) as (T' & F0'). destruct (pow_range 3 ltac:(lia)) as (_ & FU'). assert (E2 : f ^ 2 = f * f) by ring. assert (E3 : f ^ 3 = f * f * f) by ring. rewrite E2 in *. rewrite E3 in *. assert (B2 : 0 <= val a * val b <= 7 * f * (7 * f)) by (split; [apply Rmult_le_pos; lra|apply Rmult_le_compat; lra]). replace (7 * f * (7 * f)) with (49 * (f * f)) in B2 by ring. set (F := f * f) in *. clearbody F.
      assert (U60 : 49 * F <= pw 400) by (apply Rle_trans with (pw 6 * pw 60); [change (pw 6) with 64; lra|rewrite pw_mul; apply pw_le; lia]). destruct (fmul_val o b 400 ltac:(lia) Fo Fb) as (Fm & Vm); [rewrite Vo, Rabs_pos_eq by lra; lra|]. rewrite Vo in Vm. pose proof (rnd_rel (val a * val b)) as R1. rewrite <- Vm in R1. rewrite (Rabs_pos_eq (val a * val b)) in R1 by lra.
      assert (N : 0 <= val (fmul o b)) by (rewrite Vm; apply rnd_pos; lra). assert (A3 : pw (-53) * (val a * val b) <= / 1000000000000 * (49 * F)) by (apply Rmult_le_compat; lra). assert (A2 : pw (-60) * F <= / 1000000000000 * F) by (apply Rmult_le_compat_r; lra). apply abs_le in R1. set (m := fmul o b) in *. clearbody m.
      assert (Rm : Rabs (val m - val a * val b) <= 50 * / 1000000000000 * F) by (apply abs_le; lra). assert (Bm : 0 <= val m <= 50 * F) by lra. assert (B3 : 0 <= val m * val c <= 50 * F * (7 * f)) by (split; [apply Rmult_le_pos; lra|apply Rmult_le_compat; lra]). replace (50 * F * (7 * f)) with (350 * (F * f)) in B3 by ring.
      assert (Rc : Rabs (val m * val c - val a * val b * val c) <= 350 * / 1000000000000 * (F * f)). { replace (val m * val c - val a * val b * val c) with ((val m - val a * val b) * val c) by ring. rewrite Rabs_mult. rewrite (Rabs_pos_eq (val c)) by lra. replace (350 * / 1000000000000 * (F * f)) with (50 * / 1000000000000 * F * (7 * f)) by ring. apply Rmult_le_compat; auto using Rabs_pos; lra. }
      set (G := F * f) in *. clearbody G. assert (U61 : 350 * G <= pw 400) by (apply Rle_trans with (pw 9 * pw 60); [change (pw 9) with 512; lra|rewrite pw_mul; apply pw_le; lia]). destruct (fmul_val m c 400 ltac:(lia) Fm Fc) as (Fn & Vn); [rewrite Rabs_pos_eq by lra; lra|]. pose proof (rnd_rel (val m * val c)) as R2. rewrite <- Vn in R2. rewrite (Rabs_pos_eq (val m * val c)) in R2 by lra.
      assert (Nn : 0 <= val (fmul m c)) by (rewrite Vn; apply rnd_pos; lra). destruct (K _ Fn Nn) as (Fk & Vk). split; auto. rewrite Vk. split; auto. assert (A4 : pw (-53) * (val m * val c) <= / 1000000000000 * (350 * G)) by (apply Rmult_le_compat; lra). assert (A5 : pw (-60) * G <= / 1000000000000 * G) by (apply Rmult_le_compat_r; lra). apply abs_le in R2, Rc. replace (val a * (val b * (val c * 1))) with (val a * val b * val c) by ring. apply abs_le. lra. Qed.
  (** products of perturbed numbers *)
  Lemma product_close B d : 0 <= B -> 0 <= d -> forall s t, Forall2 (fun x y => 0 <= x <= B /\ 0 <= y <= B /\ Rabs (x - y) <= d) s t -> 
    0 <= rprod s <= B ^ length s /\ 0 <= rprod t <= B ^ length s /\ Rabs (rprod s - rprod t) <= INR (length s) * (B ^ (length s - 1) * d).
  Proof. intros B0 d0 s t F. induction F as [|x y s t (X & Y & D) F IH].
    - cbn. split; [lra|]. split; [lra|]. apply abs_le. lra.
    - destruct IH as (I1 & I2 & I3). cbn [rprod fold_right length]. fold (rprod s) (rprod t). cbn [pow Nat.sub]. rewrite Nat.sub_0_r. split; [split; [apply Rmult_le_pos; lra|apply Rmult_le_compat; lra]|]. split; [split; [apply Rmult_le_pos; lra|apply Rmult_le_compat; lra]|].
      replace (x * rprod s - y * rprod t) with ((x - y) * rprod s + y * (rprod s - rprod t)) by ring. eapply Rle_trans; [apply Rabs_triang|]. rewrite !Rabs_mult, (Rabs_pos_eq (rprod s)), (Rabs_pos_eq y) by lra. rewrite S_INR.
      assert (A1 : Rabs (x - y) * rprod s <= d * B ^ length s) by (apply Rmult_le_compat; lra || apply Rabs_pos).
      assert (A2 : y * Rabs (rprod s - rprod t) <= B * (INR (length s) * (B ^ (length s - 1) * d))) by (apply Rmult_le_compat; try lra; apply Rabs_pos).
      destruct (length s) as [|n]; [cbn [INR Nat.sub pow] in *; lra|]. rewrite S_INR in *. cbn [Nat.sub pow] in *. rewrite Nat.sub_0_r in *. set (q := B ^ n) in *. lra. Qed.
End Limit.
