(** Two-sided error bounds for the norm and the distance. *)
From Coq Require Import ZArith Reals Psatz List.
From Flocq Require Import Core BinarySingleNaN Relative.
From Verif Require Import Base BaseFacts CoordSys CoordSysR Float FloatFacts FloatVector FloatVectorFacts FloatMin FloatCell SpecFloatCell FloatCellNum FloatCellFacts PropFloatCell.
From Coq Require Import Lra.
Import ListNotations.
Open Scope list_scope.
Open Scope R_scope.

Definition rsum (l : list R) : R := fold_right Rplus 0 l.
Definition sumsq (l : list double) : R := rsum (map (fun x => val x * val x) l).
Lemma sumsq_nonneg l : 0 <= sumsq l.
Proof. unfold sumsq, rsum. induction l as [|x l IH]; cbn; [lra|]. pose proof (Rle_0_sqr (val x)) as X. unfold Rsqr in X. lra. Qed.

(** ** sums *)
Lemma sum_accurate : forall l a n, fin a -> (0 <= n)%Z -> (n + Z.of_nat (length l) <= 64)%Z -> 0 <= val a <= IZR n * pw 826 ->
  Forall (fun x => fin x /\ 0 <= val x <= pw 826) l ->
  let S := val a + rsum (map val l) in let k := IZR (Z.of_nat (length l)) in
  Rabs (val (fold_left fadd l a) - S) <= 2 * k * pw (-53) * S + 2 * k * pw (-1075).
Proof. induction l as [|x l IH]; intros a n Fa Hn Hl Va H S k.
  - unfold S, k, rsum. cbn. replace (val a - (val a + 0)) with 0 by ring. rewrite Rabs_R0. lra.
  - inversion H as [|? ? (Fx & Vx) H']; subst. cbn [length] in Hl. pose proof (pw_pos 826) as P.
    assert (Sm : 0 <= val a + val x <= IZR (n + 1) * pw 826) by (rewrite plus_IZR; lra).
    assert (B : Rabs (val a + val x) <= pw 833).
    { rewrite Rabs_pos_eq by lra. eapply Rle_trans; [apply Sm|]. change 833%Z with (7 + 826)%Z. rewrite <- pw_mul. apply Rmult_le_compat_r; [lra|]. change (pw 7) with (IZR 128). apply IZR_le. lia. }
    destruct (fadd_val a x 833 ltac:(lia) Fa Fx B) as (Fs & Vs). pose proof (rnd_rel (val a + val x)) as Er. rewrite <- Vs in Er. rewrite (Rabs_pos_eq (val a + val x)) in Er by lra.
    specialize (IH (fadd a x) (n + 1)%Z Fs ltac:(lia) ltac:(lia)). cbn [fold_left].
    assert (X : 0 <= val (fadd a x) <= IZR (n + 1) * pw 826).
    { rewrite Vs. split; [apply rnd_pos; lra|]. rewrite <- (rnd_id (IZR (n + 1) * pw 826)) by (apply dyadic_format; lia). apply rnd_le. lra. }
    specialize (IH X H'). cbv zeta in IH. unfold S, k. cbn [map rsum fold_right length]. fold (rsum (map val l)). rewrite Nat2Z.inj_succ, succ_IZR.
    assert (Sl : 0 <= rsum (map val l)). { clear - H'. unfold rsum. induction H' as [|y l (_ & Hy) F IH]; cbn; [lra|]. lra. }
    assert (K : 0 <= IZR (Z.of_nat (length l)) <= 64) by (split; apply IZR_le; lia). set (m := IZR (Z.of_nat (length l))) in *.
    assert (U : pw (-53) <= / 1024) by (change (/ 1024) with (pw (-10)); apply pw_le; lia). pose proof (pw_pos (-53)) as P53. pose proof (pw_pos (-1075)) as P1.
    set (u := pw (-53)) in *. set (h := pw (-1075)) in *. set (r := val (fold_left fadd l (fadd a x))) in *. set (b := val (fadd a x)) in *. set (T := rsum (map val l)) in *.
    set (s := val a + (val x + T)). assert (S0 : 0 <= s) by (unfold s; lra). assert (Eb : Rabs (b + T - s) <= u * s + h). { replace (b + T - s) with (b - (val a + val x)) by (unfold s; ring). eapply Rle_trans; [exact Er|]. apply Rplus_le_compat_r. apply Rmult_le_compat_l; unfold s; lra. }
    replace (r - s) with ((r - (b + T)) + (b + T - s)) by ring. eapply Rle_trans; [apply Rabs_triang|].
    assert (Q : 2 * m * u * (b + T) <= 2 * m * u * (s + u * s + h)) by (apply Rmult_le_compat_l; [|rewrite abs_le in Eb; lra]; assert (0 <= m * u) by (apply Rmult_le_pos; lra); lra).
    assert (MU : 0 <= 2 * m * u <= / 2). { split; [assert (0 <= m * u) by (apply Rmult_le_pos; lra); lra|]. assert (m * u <= 64 * / 1024) by (apply Rmult_le_compat; lra). lra. }
    assert (Q2 : 2 * m * u * (u * s + h) <= / 2 * (u * s + h)) by (apply Rmult_le_compat_r; [assert (0 <= u * s) by (apply Rmult_le_pos; lra); lra|lra]).
    assert (0 <= u * s) by (apply Rmult_le_pos; lra). replace (2 * (m + 1) * u * s) with (2 * m * u * s + 2 * (u * s)) by ring. replace (2 * m * u * (s + u * s + h)) with (2 * m * u * s + 2 * m * u * (u * s + h)) in Q by ring. lra. Qed.
Lemma square_accurate x : fin x -> Rabs (val x) <= pw 413 -> Rabs (val (fmul x x) - val x * val x) <= pw (-53) * (val x * val x) + pw (-1075).
Proof. intros F B. assert (Sq : 0 <= val x * val x) by nra. assert (Bm : Rabs (val x * val x) <= pw 826).
  { rewrite Rabs_mult. change 826%Z with (413 + 413)%Z. rewrite <- pw_mul. apply Rmult_le_compat; auto using Rabs_pos. }
  destruct (fmul_val x x 826 ltac:(lia) F F Bm) as (Fm & Vm). rewrite Vm. pose proof (rnd_rel (val x * val x)) as E. rewrite (Rabs_pos_eq (val x * val x)) in E by lra. exact E. Qed.
Lemma squares_accurate l : Forall (fun x => fin x /\ Rabs (val x) <= pw 413) l ->
  Rabs (rsum (map val (map (fun x => fmul x x) l)) - sumsq l) <= pw (-53) * sumsq l + IZR (Z.of_nat (length l)) * pw (-1075).
Proof. induction 1 as [|x l (Fx & Bx) F IH]; unfold sumsq, rsum in *; cbn [map fold_right length].
  - replace (0 - 0) with 0 by ring. rewrite Rabs_R0. cbn. lra.
  - rewrite Nat2Z.inj_succ, succ_IZR. pose proof (square_accurate x Fx Bx) as Sx. pose proof (pw_pos (-1075)). set (C := fold_right Rplus 0 (map (fun x => val x * val x) l)) in *. set (A := fold_right Rplus 0 (map val _)) in *.
    replace (val (fmul x x) + A - (val x * val x + C)) with ((val (fmul x x) - val x * val x) + (A - C)) by ring. eapply Rle_trans; [apply Rabs_triang|]. lra. Qed.

(** ** the square root of a sum with an error *)
Lemma sqrt_upper t s w h : 0 <= s -> 0 <= w -> 0 <= h -> t <= s * (1 + w) + h * h -> sqrt t <= sqrt s * (1 + w) + h.
Proof. intros Hs Hw Hh H. pose proof (sqrt_pos s) as R0. pose proof (sqrt_sqrt s Hs) as R2. set (r := sqrt s) in *.
  rewrite <- (sqrt_square (r * (1 + w) + h)) by nra. apply sqrt_le_1_alt. eapply Rle_trans; [exact H|]. rewrite <- R2.
  assert (0 <= r * r) by nra. assert (0 <= r * (1 + w) * h) by (apply Rmult_le_pos; nra). assert (r * r * (1 + w) <= r * r * (1 + w) * (1 + w)) by (rewrite <- (Rmult_1_r (r * r * (1 + w))) at 1; apply Rmult_le_compat_l; nra). nra. Qed.
Lemma sqrt_below t s w h : 0 <= t -> 0 <= s -> 0 <= w <= 1 -> 0 <= h -> s * (1 - w) <= t + h * h -> sqrt s * (1 - w) <= sqrt t + h.
Proof. intros Ht Hs Hw Hh H. pose proof (sqrt_pos s) as R0. pose proof (sqrt_sqrt s Hs) as R2. pose proof (sqrt_pos t) as T0. pose proof (sqrt_sqrt t Ht) as T2. set (r := sqrt s) in *. set (q := sqrt t) in *.
  apply (Rsqr_incr_0 (r * (1 - w)) (q + h)); [|nra|nra]. unfold Rsqr. rewrite <- R2, <- T2 in H. assert (0 <= r * r) by nra. assert (r * r * (1 - w) * (1 - w) <= r * r * (1 - w)) by (rewrite <- (Rmult_1_r (r * r * (1 - w))) at 2; apply Rmult_le_compat_l; nra). nra. Qed.

Theorem norm_accurate l : (length l <= 64)%nat -> Forall (fun x => fin x /\ Rabs (val x) <= pw 413) l ->
  fin (fnorm l) /\ 0 <= val (fnorm l) /\ Rabs (val (fnorm l) - sqrt (sumsq l)) <= pw (-44) * sqrt (sumsq l) + pw (-500).
Proof. intros Ll H. destruct (norm_lower l Ll H) as (F1 & F2 & _). split; auto. split; auto.
  assert (Hsq : Forall (fun x => fin x /\ 0 <= val x <= pw 826) (map (fun x => fmul x x) l)) by (apply Forall_map; eapply Forall_impl; [|exact H]; intros x (Fx & Vx); destruct (square_val x Fx Vx) as (A & B & _); auto).
  assert (S1 := sum_accurate (map (fun x => fmul x x) l) (B754_zero false) 0 eq_refl ltac:(lia) ltac:(rewrite map_length; lia) ltac:(rewrite val_zero; lra) Hsq). cbv zeta in S1. rewrite map_length, val_zero, Rplus_0_l in S1.
  pose proof (squares_accurate l H) as S2. pose proof (sumsq_nonneg l) as S0. set (S := sumsq l) in *. set (Q := rsum (map val _)) in *.
  unfold fnorm in *. set (sm := fold_left fadd _ _) in *. assert (Sp : 0 <= val sm).
  { destruct (sum_lower (map (fun x => fmul x x) l) (B754_zero false) 0) as (_ & Ps & _); [reflexivity|lia|rewrite map_length; lia|cbn; lra|auto|]. rewrite val_zero in Ps. exact Ps. }
  pose proof (Bsqrt_correct 53 1024 _ _ mode_NE sm) as (V & _). assert (Vq : val (fsqrt sm) = rnd (sqrt (val sm))) by exact V.
  assert (Q0' : 0 <= Q). { unfold Q. clear - Hsq. unfold rsum. induction Hsq as [|y k (_ & Hy) F IH]; cbn; [lra|]. lra. }
  clear V F1 H Hsq.
  assert (K : 0 <= IZR (Z.of_nat (length l)) <= 64) by (split; apply IZR_le; lia). set (m := IZR (Z.of_nat (length l))) in *. clearbody m.
  assert (U : pw (-53) <= / 1048576) by (change (/ 1048576) with (pw (-20)); apply pw_le; lia). pose proof (pw_pos (-53)) as P53. pose proof (pw_pos (-1075)) as P1. 
  assert (E : Rabs (val sm - S) <= 256 * pw (-53) * S + pw (-530) * pw (-530)).
  { assert (E1 : 512 * pw (-1075) <= pw (-530) * pw (-530)) by (change 512 with (pw 9); rewrite !pw_mul; apply pw_le; lia). set (u := pw (-53)) in *. set (h := pw (-1075)) in *. set (g := pw (-530)) in *.
    assert (0 <= u * S) by (apply Rmult_le_pos; lra). assert (MH : m * h <= 64 * h) by (apply Rmult_le_compat_r; lra). assert (MU : 0 <= m * u <= 64 * u) by (split; [apply Rmult_le_pos; lra|apply Rmult_le_compat_r; lra]).
    assert (Q1 : Q <= S + u * S + 64 * h) by (rewrite abs_le in S2; lra). assert (Q2 : 2 * m * u * Q <= 128 * u * (S + u * S + 64 * h)).
    {
      apply Rle_trans with (2 * (64 * u) * Q); [replace (2 * m * u * Q) with (2 * (m * u) * Q) by ring; apply Rmult_le_compat_r; lra|]. replace (2 * (64 * u) * Q) with (128 * u * Q) by ring. apply Rmult_le_compat_l; lra. }
    assert (UU : u * (u * S) <= / 1048576 * (u * S)) by (apply Rmult_le_compat_r; lra). assert (UH : u * h <= / 1048576 * h) by (apply Rmult_le_compat_r; lra).
    replace (val sm - S) with ((val sm - Q) + (Q - S)) by ring. eapply Rle_trans; [apply Rabs_triang|]. replace (128 * u * (S + u * S + 64 * h)) with (128 * (u * S) + 128 * (u * (u * S)) + 8192 * (u * h)) in Q2 by ring. lra. }
  clear S1 S2 K Q0'. clearbody Q S. rewrite abs_le in E. set (w := 256 * pw (-53)) in *. pose proof (pw_pos (-530)) as Pg. set (g := pw (-530)) in *.
  assert (Up : sqrt (val sm) <= sqrt S * (1 + w) + g) by (apply sqrt_upper; auto; first [lra|unfold w; lra]).
  assert (Lo : sqrt S * (1 - w) <= sqrt (val sm) + g) by (apply sqrt_below; auto; first [lra|unfold w; lra]).
  pose proof (rnd_rel (sqrt (val sm))) as Er. rewrite <- Vq in Er. pose proof (sqrt_pos (val sm)) as Q0. pose proof (sqrt_pos S) as S1. rewrite (Rabs_pos_eq (sqrt (val sm))) in Er by auto.
  assert (E44 : pw (-44) = 512 * pw (-53)) by (change 512 with (pw 9); rewrite pw_mul; reflexivity). assert (E500 : 8 * g <= pw (-500)) by (unfold g; change 8 with (pw 3); rewrite pw_mul; apply pw_le; lia).
  assert (T : pw (-1075) <= g) by (apply pw_le; lia). rewrite E44. clearbody g. set (u := pw (-53)) in *. clearbody u. set (h := pw (-1075)) in *. clearbody h. set (r := sqrt S) in *. clearbody r. set (q := sqrt (val sm)) in *. clearbody q. set (D := val (fsqrt sm)) in *. clearbody D.
  unfold w in *. assert (0 <= u * r) by (apply Rmult_le_pos; lra). assert (UQ : u * q <= u * (r * (1 + 256 * u) + g)) by (apply Rmult_le_compat_l; lra). assert (UUR : u * (u * r) <= / 1048576 * (u * r)) by (apply Rmult_le_compat_r; lra). assert (UG : u * g <= / 1048576 * g) by (apply Rmult_le_compat_r; lra).
  replace (u * (r * (1 + 256 * u) + g)) with (u * r + 256 * (u * (u * r)) + u * g) in UQ by ring. rewrite abs_le in *. lra. Qed.

(** ** the differences in [distance] *)
Lemma delta_accurate b x y : good_box b -> good_coord b x -> good_coord b y -> let s := val (fsize (fst b) (snd b)) in let d := val (fdelta b x y) in
  0 <= d /\ (exists k, Rabs (Rabs (val y - val x - IZR k * s) - d) <= pw (-40) * s) /\ forall k, d <= Rabs (val y - val x - IZR k * s) + pw (-40) * s.
Proof. intros Gb (Fx & Bx) (Fy & By) s d. change (fbox_size b) with s in Bx, By. destruct (size_ok b Gb) as (Fs & Ls & Us). pose proof (s_pos b Gb) as Ps. pose proof (tiny b Gb) as T. fold s in Bx, By, Ls, Us, Ps, T.
  assert (B : Rabs (val y - val x) <= pw 11 * s) by (change 11%Z with (10 + 1)%Z; rewrite pow_succ; rewrite abs_le in *; lra).
  destruct (diff_val b Gb y x Fy Fx B) as (Fa & Ea). fold s in Ea. unfold d, fdelta. set (S := fsize (fst b) (snd b)) in *. set (a := fsub y x) in *. cbv zeta.
  destruct (np_mod_val a S Fa Fs Ps) as (Fm & Vm & Rm & _). set (m := np_mod a S) in *.
  assert (Bm : Rabs (s - val m) <= pw 401) by (fold s in Rm; rewrite abs_le; lra). destruct (fsub_val S m 401 ltac:(lia) Fs Fm Bm) as (Fn & Vn). fold s in Vn.
  pose proof (rnd_rel (s - val m)) as En. rewrite <- Vn in En. destruct (fmin_val (fsub S m) m Fn Fm) as (Fd & Vd). fold s in Rm, Vm. rewrite Vd.
  assert (Rn : 0 <= val (fsub S m)) by (rewrite Vn; apply rnd_pos; lra).
  assert (Pd : 0 <= Rmin (val (fsub S m)) (val m)) by (apply Rmin_glb; lra). split; auto.
  assert (C : exists j e, val m = val a + IZR j * s + e /\ Rabs e <= pw (-53) * s + pw (-1075)).
  { set (q := Ztrunc (val a / s)) in *. change (val S) with s in Vm. fold q in Vm. destruct (fmod_range (val a) s Ps) as (R1 & R2). cbv zeta in R1, R2. fold q in R1, R2. rewrite Vm.
    destruct (Rlt_bool_spec (val a - IZR q * s) 0) as [Hm|Hm].
    - exists (1 - q)%Z, (rnd (val a - IZR q * s + s) - (val a - IZR q * s + s)). split; [rewrite minus_IZR; ring|]. eapply Rle_trans; [apply rnd_rel|]. apply Rplus_le_compat_r. apply Rmult_le_compat_l; [left; apply pw_pos|].
      assert (- s < val a - IZR q * s). { destruct (Rle_or_lt 0 (val a)); [specialize (R1 ltac:(lra)); lra|specialize (R2 ltac:(lra)); lra]. } rewrite Rabs_pos_eq by lra. lra.
    - exists (- q)%Z, 0. split; [rewrite opp_IZR; ring|]. rewrite Rabs_R0. pose proof (pw_pos (-53)). pose proof (pw_pos (-1075)). nra. }
  destruct C as (j & e & Em & Be). rewrite (Rabs_pos_eq (s - val m)) in En by lra.
  assert (E40 : pw (-40) = 2 * pw (-41)) by (change (-40)%Z with (-41 + 1)%Z; apply pow_succ). assert (E53 : pw (-53) <= / 8 * pw (-41)).
  { change (/ 8) with (pw (-3)). rewrite pw_mul. apply pw_le. lia. } assert (E60 : pw (-60) <= / 8 * pw (-41)) by (change (/ 8) with (pw (-3)); rewrite pw_mul; apply pw_le; lia).
  assert (X53 : pw (-53) * s <= / 8 * pw (-41) * s) by (apply Rmult_le_compat_r; lra). assert (X60 : pw (-60) * s <= / 8 * pw (-41) * s) by (apply Rmult_le_compat_r; lra).
  assert (Y53 : pw (-53) * (s - val m) <= pw (-53) * s) by (apply Rmult_le_compat_l; [left; apply pw_pos|lra]). rewrite E40. pose proof (pw_pos (-41)) as P41. assert (Z41 : 0 < pw (-41) * s) by (apply Rmult_lt_0_compat; lra).
  assert (Dm : Rabs (Rmin (val (fsub S m)) (val m) - Rmin (s - val m) (val m)) <= / 4 * pw (-41) * s).
  { unfold Rmin. destruct (Rle_dec (val (fsub S m)) (val m)), (Rle_dec (s - val m) (val m)); rewrite abs_le in *; lra. }
  set (D := Rmin (val (fsub S m)) (val m)) in *. clearbody D. clear Vd Fd Vn En Rn.
  assert (Ea' : Rabs (val a - (val y - val x)) <= pw (-41) * s) by exact Ea. clear Ea. assert (Em' : Rabs (val m - (val y - val x + IZR j * s)) <= pw (-41) * s + / 4 * (pw (-41) * s)) by (rewrite abs_le in *; lra). assert (Dm' : Rabs (D - Rmin (s - val m) (val m)) <= / 4 * (pw (-41) * s)) by (rewrite <- Rmult_assoc; exact Dm). clear Dm. rename Dm' into Dm. rewrite Rmult_assoc. set (t := pw (-41) * s) in *.
  split.
  - unfold Rmin in Dm. destruct (Rle_dec (s - val m) (val m)) as [Hc|Hc].
    + exists (1 - j)%Z. rewrite minus_IZR. assert (X : Rabs (val y - val x - (1 - IZR j) * s + (s - val m)) <= t + / 4 * t) by (rewrite abs_le in *; lra).
      assert (Y : Rabs (Rabs (val y - val x - (1 - IZR j) * s) - (s - val m)) <= t + / 4 * t).
      { rewrite <- (Rabs_Ropp (val y - val x - (1 - IZR j) * s)). rewrite <- (Rabs_pos_eq (s - val m)) at 1 by lra. eapply Rle_trans; [apply Rabs_triang_inv2|]. replace (- (val y - val x - (1 - IZR j) * s) - (s - val m)) with (- (val y - val x - (1 - IZR j) * s + (s - val m))) by ring. rewrite Rabs_Ropp. exact X. }
      rewrite abs_le in *. lra.
    + exists (- j)%Z. rewrite opp_IZR. assert (X : Rabs (val y - val x - - IZR j * s - val m) <= t + / 4 * t) by (rewrite abs_le in *; lra).
      assert (Y : Rabs (Rabs (val y - val x - - IZR j * s) - val m) <= t + / 4 * t) by (rewrite <- (Rabs_pos_eq (val m)) at 1 by lra; eapply Rle_trans; [apply Rabs_triang_inv2|exact X]).
      rewrite abs_le in *. lra.
  - intros k. assert (Nm : Rmin (s - val m) (val m) <= Rabs (val m - IZR (j + k) * s)).
    { destruct (Z_le_gt_dec (j + k) 0) as [L|L].
      - apply IZR_le in L. assert (IZR (j + k) * s <= 0) by nra. rewrite Rabs_pos_eq by lra. eapply Rle_trans; [apply Rmin_r|]. lra.
      - assert (L' : (1 <= j + k)%Z) by lia. apply IZR_le in L'. assert (s <= IZR (j + k) * s) by nra. rewrite Rabs_left1 by lra. eapply Rle_trans; [apply Rmin_l|]. lra. }
    assert (X : Rabs (val m - IZR (j + k) * s) <= Rabs (val y - val x - IZR k * s) + (t + / 4 * t)).
    { replace (val m - IZR (j + k) * s) with ((val y - val x - IZR k * s) + (val m - (val y - val x + IZR j * s))) by (rewrite plus_IZR; ring). eapply Rle_trans; [apply Rabs_triang|]. lra. }
    rewrite abs_le in Dm. lra. Qed.

(** ** the distance *)
Lemma sum_triangle z Z e E a A : 0 <= Z -> 0 <= e -> 0 <= E -> 0 <= a -> a <= Rabs z + e -> A <= (sqrt Z + E) * (sqrt Z + E) -> a * a + A <= (sqrt (z ^ 2 + Z) + (e + E)) * (sqrt (z ^ 2 + Z) + (e + E)).
Proof. intros HZ He HE Ha H1 H2. assert (Hz : 0 <= z ^ 2 + Z) by nra. pose proof (sqrt_sqrt _ Hz) as R2. pose proof (sqrt_pos (z ^ 2 + Z)) as R0. set (r := sqrt (z ^ 2 + Z)) in *.
  assert (L1 : Rabs z <= r). { unfold r. rewrite <- sqrt_Rsqr_abs. apply sqrt_le_1_alt. unfold Rsqr. nra. }
  assert (L2 : sqrt Z <= r) by (unfold r; apply sqrt_le_1_alt; nra). pose proof (sqrt_sqrt Z HZ) as Z2. pose proof (sqrt_pos Z) as Z0. set (t := sqrt Z) in *. pose proof (Rabs_pos z) as A0.
  assert (Q : Rabs z * Rabs z = z ^ 2) by (rewrite <- Rabs_mult; rewrite Rabs_pos_eq by nra; ring). set (y := Rabs z) in *. clearbody y t r.
  assert (a * a <= (y + e) * (y + e)) by nra. assert (y * e <= r * e) by (apply Rmult_le_compat_r; auto). assert (t * E <= r * E) by (apply Rmult_le_compat_r; auto). assert (0 <= e * E) by (apply Rmult_le_pos; auto). nra. Qed.
Definition tsize (boxes : list fbox) : R := fold_right Rplus 0 (map fbox_size boxes).
Lemma tsize_nonneg boxes : Forall good_box boxes -> 0 <= tsize boxes.
Proof. unfold tsize. induction 1 as [|b l H F IH]; cbn; [lra|]. pose proof (s_pos b H) as X. change (fbox_size b) with (val (fsize (fst b) (snd b))). lra. Qed.
Lemma open_delta b x y : good_box b -> good_coord b x -> good_coord b y -> Rabs (val (fsub x y) - (val x - val y)) <= pw (-40) * fbox_size b.
Proof. intros Gb (Fx & Bx) (Fy & By). change (fbox_size b) with (val (fsize (fst b) (snd b))) in *. set (s := val (fsize (fst b) (snd b))) in *. pose proof (s_pos b Gb) as Ps. fold s in Ps.
  assert (E : pw 11 * s = 2 * (pw 10 * s)) by (change 11%Z with (10 + 1)%Z; rewrite pow_succ; ring). assert (B : Rabs (val x - val y) <= pw 11 * s) by (rewrite abs_le in *; lra).
  destruct (diff_val b Gb x y Fx Fy B) as (_ & Ed). fold s in Ed. assert (pw (-41) * s <= pw (-40) * s) by (apply Rmult_le_compat_r; [lra|apply pw_le; lia]). lra. Qed.

Section Distance.
  Variable per : bool.
  Notation deltas := (deltas per).
  (** for every image *)
  Lemma deltas_upper : forall boxes p q ks, Forall good_box boxes -> Forall2 good_coord boxes p -> Forall2 good_coord boxes q -> length ks = length boxes -> (per = false -> Forall (fun k => k = 0%Z) ks) ->
    sumsq (deltas boxes q p) <= (sqrt (image_dist_sq boxes p q ks) + pw (-40) * tsize boxes) * (sqrt (image_dist_sq boxes p q ks) + pw (-40) * tsize boxes).
  Proof. induction boxes as [|b boxes IH]; intros p q ks Gb Hp Hq Lk Hk; inversion Hp as [|? x ? p' Hx Hp']; inversion Hq as [|? y ? q' Hy Hq']; subst; destruct ks as [|k ks]; try discriminate.
    - cbn. unfold tsize, sumsq, rsum, deltas. destruct per; cbn; rewrite ?sqrt_0; lra.
    - inversion Gb; subst. assert (Hk' : per = false -> Forall (fun k => k = 0%Z) ks) by (intros E; specialize (Hk E); inversion Hk; auto).
      specialize (IH p' q' ks ltac:(auto) Hp' Hq' ltac:(cbn in Lk; lia) Hk'). cbn [image_dist_sq]. unfold tsize. cbn [map fold_right]. fold (tsize boxes). rewrite (Rmult_plus_distr_l (pw (-40))).
      pose proof (image_nonneg boxes p' q' ks) as N. pose proof (tsize_nonneg boxes ltac:(auto)) as Ts. pose proof (pw_pos (-40)). pose proof (s_pos b ltac:(auto)) as Ps.
      assert (e0 : 0 <= pw (-40) * fbox_size b) by (apply Rmult_le_pos; [lra|left; exact Ps]). assert (E0 : 0 <= pw (-40) * tsize boxes) by (apply Rmult_le_pos; lra).
      assert (Hd : exists d, sumsq (deltas (b :: boxes) (y :: q') (x :: p')) = Rabs d * Rabs d + sumsq (deltas boxes q' p') /\ Rabs d <= Rabs (val x - val y - IZR k * fbox_size b) + pw (-40) * fbox_size b).
      { unfold deltas, PropFloatCell.deltas. destruct per eqn:Ep.
        - exists (val (fdelta b y x)). split; [unfold sumsq, rsum; cbn; f_equal; rewrite <- Rabs_mult; symmetry; apply Rabs_pos_eq; nra|]. destruct (delta_accurate b y x) as (D0 & _ & D2); auto. rewrite Rabs_pos_eq by auto. apply D2.
        - specialize (Hk eq_refl). inversion Hk; subst. exists (val (fsub x y)). split; [unfold sumsq, rsum; cbn; f_equal; rewrite <- Rabs_mult; symmetry; apply Rabs_pos_eq; nra|].
          pose proof (open_delta b x y ltac:(auto) Hx Hy) as O. replace (val x - val y - 0 * fbox_size b) with (val x - val y) by ring. replace (val (fsub x y)) with ((val x - val y) + (val (fsub x y) - (val x - val y))) by ring. eapply Rle_trans; [apply Rabs_triang|]. lra. }
      destruct Hd as (d & -> & Hd). apply sum_triangle; auto using Rabs_pos. Qed.
  (** for some image *)
  Lemma deltas_lower : forall boxes p q, Forall good_box boxes -> Forall2 good_coord boxes p -> Forall2 good_coord boxes q ->
    exists ks, length ks = length boxes /\ (per = false -> Forall (fun k => k = 0%Z) ks) /\
      image_dist_sq boxes p q ks <= (sqrt (sumsq (deltas boxes q p)) + pw (-40) * tsize boxes) * (sqrt (sumsq (deltas boxes q p)) + pw (-40) * tsize boxes).
  Proof. induction boxes as [|b boxes IH]; intros p q Gb Hp Hq; inversion Hp as [|? x ? p' Hx Hp']; inversion Hq as [|? y ? q' Hy Hq']; subst.
    - exists []. split; auto. split; auto. cbn. assert (X : sumsq (deltas [] [] []) = 0) by (unfold deltas, PropFloatCell.deltas; destruct per; reflexivity). rewrite X, sqrt_0. unfold tsize. cbn. lra.
    - inversion Gb; subst. destruct (IH p' q' ltac:(auto) Hp' Hq') as (ks & Lk & Hk & H).
      assert (Hd : exists k d, sumsq (deltas (b :: boxes) (y :: q') (x :: p')) = d ^ 2 + sumsq (deltas boxes q' p') /\ (per = false -> k = 0%Z) /\ Rabs (val x - val y - IZR k * fbox_size b) <= Rabs d + pw (-40) * fbox_size b).
      { unfold deltas, PropFloatCell.deltas. destruct per eqn:Ep.
        - destruct (delta_accurate b y x) as (D0 & (k & D2) & _); auto. exists k, (val (fdelta b y x)). split; [unfold sumsq, rsum, per_coordinate; cbn [combine map map2 fold_right fst snd]; ring|]. split; [discriminate|]. rewrite (Rabs_pos_eq (val (fdelta b y x))) by auto. change (fbox_size b) with (val (fsize (fst b) (snd b))). apply abs_le in D2. lra.
        - exists 0%Z, (val (fsub x y)). split; [unfold sumsq, rsum, per_coordinate; cbn [combine map map2 fold_right fst snd]; ring|]. split; auto.
          pose proof (open_delta b x y ltac:(auto) Hx Hy) as O. replace (val x - val y - 0 * fbox_size b) with (val (fsub x y) - (val (fsub x y) - (val x - val y))) by ring. eapply Rle_trans; [apply Rabs_triang|]. rewrite Rabs_Ropp. lra. }
      destruct Hd as (k & d & Ed & Hk0 & Hd). exists (k :: ks). split; [cbn; lia|]. split; [intros E; constructor; auto|]. rewrite Ed. cbn [image_dist_sq]. unfold tsize. cbn [map fold_right]. fold (tsize boxes). rewrite (Rmult_plus_distr_l (pw (-40))).
      pose proof (tsize_nonneg boxes ltac:(auto)) as Ts. pose proof (pw_pos (-40)). pose proof (s_pos b ltac:(auto)) as Ps.
      assert (e0 : 0 <= pw (-40) * fbox_size b) by (apply Rmult_le_pos; [lra|left; exact Ps]). assert (E0 : 0 <= pw (-40) * tsize boxes) by (apply Rmult_le_pos; lra).
      assert (Q : (val x - val y - IZR k * fbox_size b) ^ 2 = Rabs (val x - val y - IZR k * fbox_size b) * Rabs (val x - val y - IZR k * fbox_size b)) by (rewrite <- Rabs_mult; rewrite Rabs_pos_eq by apply Rle_0_sqr; ring).
      change (B2R x) with (val x). change (B2R y) with (val y). rewrite Q. apply sum_triangle; auto using Rabs_pos, sumsq_nonneg. Qed.

  Variable boxes : list fbox.
  Hypothesis Gb : Forall good_box boxes.
  Hypothesis Ll : (length boxes <= 64)%nat.
  Hypothesis Ne : boxes <> [].
  Lemma tiny_total : pw (-500) <= pw (-41) * tsize boxes.
  Proof. destruct boxes as [|b l]; [congruence|]. inversion Gb as [|? ? G1 G2]; subst. unfold tsize. cbn [map fold_right]. fold (tsize l). pose proof (tsize_nonneg l G2). destruct (size_ok b G1) as (_ & L & _). change (fbox_size b) with (val (fsize (fst b) (snd b))).
    assert (pw (-500) <= pw (-41) * pw (-400)) by (rewrite pw_mul; apply pw_le; lia). assert (pw (-41) * pw (-400) <= pw (-41) * (val (fsize (fst b) (snd b)) + tsize l)) by (apply Rmult_le_compat_l; [left; apply pw_pos|lra]). lra. Qed.
  Lemma deltas_length p q : Forall2 good_coord boxes p -> Forall2 good_coord boxes q -> (length (deltas boxes q p) <= 64)%nat.
  Proof. intros Hp Hq. pose proof (F2_length _ _ _ Hp) as L1. pose proof (F2_length _ _ _ Hq) as L2. unfold deltas, PropFloatCell.deltas, per_coordinate. destruct per; [rewrite map_length, !combine_length; lia|rewrite map2_length; lia]. Qed.
  Theorem dist_accurate p q : good_position boxes p -> good_position boxes q -> let D := val (fdist per boxes q p) in
    fin (fdist per boxes q p) /\ 0 <= D /\ within_dist per boxes p q (D + (pw (-43) * D + pw (-39) * tsize boxes)) /\
    forall d, 0 <= d -> within_dist per boxes p q d -> D <= d + (pw (-43) * d + pw (-39) * tsize boxes).
  Proof. intros Hp Hq D. unfold D. clear D. rewrite fdist_deltas. pose proof (deltas_bound per boxes p q Gb Hp Hq) as Bd. destruct (norm_accurate (deltas boxes q p) (deltas_length p q Hp Hq) Bd) as (F & D0 & Er). set (D := val (fnorm _)) in *. split; auto. split; auto.
    pose proof (tiny_total) as Ty. pose proof (tsize_nonneg boxes Gb) as Ts. pose proof (pw_pos (-44)) as P44. assert (E43 : pw (-43) = 2 * pw (-44)) by (change 2 with (pw 1); rewrite pw_mul; reflexivity). assert (E39 : pw (-39) = 4 * pw (-41)) by (change 4 with (pw 2); rewrite pw_mul; reflexivity). assert (E40 : pw (-40) = 2 * pw (-41)) by (change 2 with (pw 1); rewrite pw_mul; reflexivity).
    assert (U : pw (-44) <= / 1048576) by (change (/ 1048576) with (pw (-20)); apply pw_le; lia). pose proof (sqrt_pos (sumsq (deltas boxes q p))) as N0. set (N := sqrt (sumsq (deltas boxes q p))) in *. rewrite E43, E39.
    assert (PT : 0 <= pw (-41) * tsize boxes) by (apply Rmult_le_pos; [left; apply pw_pos|auto]). rewrite abs_le in Er. split.
    - destruct (deltas_lower boxes p q Gb Hp Hq) as (ks & Lk & Hk & H). fold N in H. rewrite E40 in H. exists ks. split; auto. split; auto. eapply Rle_trans; [exact H|]. rewrite Rmult_assoc in *. set (T := pw (-41) * tsize boxes) in *. rewrite Rmult_assoc. fold T. set (u := pw (-44)) in *.
      assert (UN : 0 <= u * N) by (apply Rmult_le_pos; lra). assert (UU : u * (u * N) <= / 1048576 * (u * N)) by (apply Rmult_le_compat_r; lra). assert (UT : u * pw (-500) <= / 1048576 * pw (-500)) by (apply Rmult_le_compat_r; [left; apply pw_pos|lra]).
      assert (K : u * (N - u * N - pw (-500)) <= u * D) by (apply Rmult_le_compat_l; lra). replace (4 * pw (-41) * tsize boxes) with (4 * T) by (unfold T; ring). replace (2 * u * D) with (2 * (u * D)) by ring. assert (UD : 0 <= u * D) by (apply Rmult_le_pos; lra). pose proof (pw_pos (-500)). assert (X : 0 <= N + 2 * T <= D + (2 * (u * D) + 4 * T)) by lra. replace ((D + (2 * (u * D) + 4 * T)) ^ 2) with ((D + (2 * (u * D) + 4 * T)) * (D + (2 * (u * D) + 4 * T))) by ring. apply Rmult_le_compat; lra.
    - intros d Hd (ks & Lk & Hk & H). pose proof (deltas_upper boxes p q ks Gb Hp Hq Lk Hk) as X. set (T := pw (-41) * tsize boxes) in *. assert (ET : pw (-40) * tsize boxes = 2 * T) by (rewrite E40; unfold T; ring). rewrite ET in X.
      assert (Sd : sqrt (image_dist_sq boxes p q ks) <= d) by (rewrite <- (sqrt_pow2 d) by auto; apply sqrt_le_1_alt; exact H). pose proof (sqrt_pos (image_dist_sq boxes p q ks)) as S0.
      assert (Nd : N <= d + 2 * T). { unfold N. rewrite <- (sqrt_square (d + 2 * T)) by lra. apply sqrt_le_1_alt. eapply Rle_trans; [exact X|]. apply Rmult_le_compat; lra. }
      replace (4 * pw (-41) * tsize boxes) with (4 * T) by (unfold T; ring). set (u := pw (-44)) in *. assert (UN : u * N <= u * (d + 2 * T)) by (apply Rmult_le_compat_l; lra). assert (UT : u * T <= / 1048576 * T) by (apply Rmult_le_compat_r; lra). assert (0 <= u * d) by (apply Rmult_le_pos; lra). lra. Qed.
End Distance.
