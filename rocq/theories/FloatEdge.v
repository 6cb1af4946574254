(** The derivative estimate in double precision: the longest edge of a simplex up to rounding. *)
From Coq Require Import ZArith Reals Psatz List.
From Flocq Require Import Core BinarySingleNaN Relative Plus_error.
From Verif Require Import Base BaseFacts CoordSys NelderMead NelderMeadFacts SpecStep Float FloatFacts FloatVector FloatVectorFacts FloatMin FloatOrder SpecFloatMin FloatMinFacts FloatMinProps FloatCell FloatCellNum FloatDistNum SpecFloatStep FloatStepNum.
From Coq Require Import Lra.
Import ListNotations.
Open Scope list_scope.
Open Scope R_scope.

(** a subtraction has only a relative error, also near zero *)
Lemma sub_rel x y : fin x -> fin y -> Rabs (val x - val y) <= pw 413 -> fin (fsub x y) /\ exists e, Rabs e <= pw (-53) /\ val (fsub x y) = (val x - val y) * (1 + e).
Proof. intros Fx Fy B. destruct (fsub_val x y 413 ltac:(lia) Fx Fy B) as (F & V). split; auto.
  destruct (FLT_plus_error_N_ex radix2 (-1074) 53 (fun n => negb (Z.even n)) (val x) (- val y)) as (e & He & E).
  - apply generic_format_B2R.
  - apply generic_format_opp, generic_format_B2R.
  - exists e. split.
    + eapply Rle_trans; [exact He|]. unfold u_ro. change (pw (- (53) + 1)) with (pw (-52)). replace (pw (-53)) with (/ 2 * pw (-52)) by (change (/ 2) with (pw (-1)); rewrite pw_mul; reflexivity).
      assert (P := pw_pos (-52)). apply Rle_trans with (/ 2 * pw (-52) / 1); [|lra]. apply Rmult_le_compat_l; [lra|]. apply Rinv_le; lra.
    + rewrite V. exact E. Qed.

Definition good_vertex (p : list double) : Prop := Forall (fun c => fin c /\ Rabs (val c) <= pw 400) p.
Notation dist2 p q := (fold_right Rplus 0 (map (fun xy : double * double => (val (fst xy) - val (snd xy)) ^ 2) (combine p q))).

Lemma dist2_nonneg (p q : list double) : 0 <= dist2 p q.
Proof. induction (combine p q) as [|a l IH]; cbn [map fold_right]; [lra|]. pose proof (pow2_ge_0 (val (fst a) - val (snd a))). lra. Qed.
Lemma dist2_sym : forall (p q : list double), dist2 p q = dist2 q p.
Proof. induction p as [|x p IH]; intros [|y q]; cbn [combine map fold_right fst snd]; auto. rewrite IH. ring. Qed.
Lemma dist2_self (p : list double) : dist2 p p = 0.
Proof. induction p as [|x p IH]; cbn [combine map fold_right fst snd]; auto. rewrite IH. ring. Qed.

Lemma differences : forall p q, good_vertex p -> good_vertex q ->
  Forall (fun x => fin x /\ Rabs (val x) <= pw 413) (dvsub q p) /\
  (1 - pw (-53)) * (1 - pw (-53)) * dist2 p q <= sumsq (dvsub q p) <= (1 + pw (-53)) * (1 + pw (-53)) * dist2 p q.
Proof. assert (U : 0 < pw (-53) <= / 1024) by (split; [apply pw_pos|change (/ 1024) with (pw (-10)); apply pw_le; lia]).
  induction p as [|x p IH]; intros [|y q] Gp Gq; cbn [combine map fold_right fst snd]; try (unfold sumsq, rsum; cbn; split; [constructor|lra]).
  destruct (Forall_inv Gp) as (Fx & Bx). destruct (Forall_inv Gq) as (Fy & By). destruct (IH q (Forall_inv_tail Gp) (Forall_inv_tail Gq)) as (A & B).
  assert (P4 : pw 401 = 2 * pw 400) by (change 2 with (pw 1); rewrite pw_mul; reflexivity). assert (Bd : Rabs (val y - val x) <= pw 401) by (rewrite abs_le in *; lra).
  destruct (sub_rel y x Fy Fx ltac:(eapply Rle_trans; [exact Bd|apply pw_le; lia])) as (F & e & He & V).
  unfold dvsub in *. cbn [map2]. split.
  - constructor; auto. split; auto. rewrite V, Rabs_mult. assert (Rabs (1 + e) <= 2) by (rewrite abs_le in *; lra).
    apply Rle_trans with (pw 401 * 2); [apply Rmult_le_compat; auto; apply Rabs_pos|]. change 2 with (pw 1). rewrite pw_mul. apply pw_le. lia.
  - unfold sumsq, rsum in *. cbn [map fold_right]. rewrite V. set (u := pw (-53)) in *. rewrite abs_le in He.
    set (d := val y - val x) in *. replace (d * (1 + e) * (d * (1 + e))) with (d * d * ((1 + e) * (1 + e))) by ring. replace ((val x - val y) ^ 2) with (d * d) by (unfold d; ring).
    assert (D : 0 <= d * d) by (pose proof (Rle_0_sqr d) as X; unfold Rsqr in X; lra).
    assert ((1 - u) * (1 - u) <= (1 + e) * (1 + e) <= (1 + u) * (1 + u)) by (split; apply Rmult_le_compat; lra).
    rewrite !Rmult_plus_distr_l. assert (d * d * ((1 - u) * (1 - u)) <= d * d * ((1 + e) * (1 + e)) <= d * d * ((1 + u) * (1 + u))) by (split; apply Rmult_le_compat_l; lra). lra. Qed.

Lemma edge_val p q : length p = length q -> (length p <= 64)%nat -> good_vertex p -> good_vertex q ->
  let N := fsqrt (edge_norm_sq (p, q)) in fin N /\ 0 <= val N /\ Rabs (val N - rdistance p q) <= pw (-43) * rdistance p q + pw (-500).
Proof. intros L L6 Gp Gq. destruct (differences p q Gp Gq) as (A & B). 
  assert (Ld : (length (dvsub q p) <= 64)%nat) by (unfold dvsub; rewrite map2_length; lia).
  destruct (norm_accurate _ Ld A) as (F & P & E). unfold edge_norm_sq. cbn [fst snd]. change (fsqrt _) with (fnorm (dvsub q p)). cbv zeta. split; [exact F|]. split; [exact P|].
  assert (R : (1 - pw (-53)) * rdistance p q <= sqrt (sumsq (dvsub q p)) <= (1 + pw (-53)) * rdistance p q).
  { assert (U : 0 < pw (-53) <= / 1024) by (split; [apply pw_pos|change (/ 1024) with (pw (-10)); apply pw_le; lia]). pose proof (dist2_nonneg p q). unfold rdistance. destruct B as (B1 & B2).
    assert (Sq : forall k, 0 <= k -> sqrt (k * k * dist2 p q) = k * sqrt (dist2 p q)) by (intros k Hk; rewrite sqrt_mult_alt by nra; rewrite sqrt_square by auto; reflexivity).
    rewrite <- !Sq by lra. split; apply sqrt_le_1_alt; auto. }
  pose proof (sqrt_pos (dist2 p q)) as D0. change (sqrt (dist2 p q)) with (rdistance p q) in D0.
  assert (E43 : pw (-43) = 1024 * pw (-53)) by (change 1024 with (pw 10); rewrite pw_mul; reflexivity). assert (E44 : pw (-44) = 512 * pw (-53)) by (change 512 with (pw 9); rewrite pw_mul; reflexivity).
  assert (U : 0 < pw (-53) <= / 1024) by (split; [apply pw_pos|change (/ 1024) with (pw (-10)); apply pw_le; lia]). rewrite E44 in E. rewrite E43. set (u := pw (-53)) in *. set (r := rdistance p q) in *. set (t := sqrt _) in *. clearbody u r t.
  assert (0 <= u * r) by nra. assert (u * t <= u * ((1 + u) * r)) by (apply Rmult_le_compat_l; lra). assert (u * (u * r) <= / 1024 * (u * r)) by (apply Rmult_le_compat_r; lra). rewrite abs_le in *. lra. Qed.

(** ** the longest edge *)
Lemma np_dmax_in l : l <> [] -> In (np_dmax l) l.
Proof. destruct l as [|x l]; [congruence|]. intros _. cbn. revert x. induction l as [|y l IH]; intros x; cbn; auto.
  destruct (IH (dmax2 x y)) as [E|E]; auto. unfold dmax2 in *. destruct (is_nan x); auto. destruct (is_nan y); auto. destruct (flt x y); auto. Qed.
Lemma fsqrt_mono x y : fin x -> fin y -> dle x y = true -> val (fsqrt x) <= val (fsqrt y).
Proof. intros Fx Fy H. unfold dle in H. rewrite Bleb_correct in H by auto. destruct (Rle_bool_spec (val x) (val y)) as [L|]; [|discriminate].
  destruct (Bsqrt_correct 53 1024 _ _ mode_NE x) as (Vx & _). destruct (Bsqrt_correct 53 1024 _ _ mode_NE y) as (Vy & _). unfold fsqrt. rewrite Vx, Vy. apply rnd_le, sqrt_le_1_alt, L. Qed.
Lemma in_pairs {A} (l : list A) p q : In (p, q) (pairs l) -> In p l /\ In q l.
Proof. induction l as [|x l IH]; cbn; [tauto|]. rewrite in_app_iff, in_map_iff. intros [(y & E & H)|H]; [injection E as <- <-; auto|]. apply IH in H. tauto. Qed.
Lemma pairs_in {A} (l : list A) p q : In p l -> In q l -> p = q \/ In (p, q) (pairs l) \/ In (q, p) (pairs l).
Proof. induction l as [|x l IH]; cbn [In pairs]; [tauto|]. intros [Ep|Ip] [Eq|Iq]; try (subst; auto); rewrite ?in_app_iff, ?in_map_iff; subst; eauto 7. destruct (IH Ip Iq) as [E|[E|E]]; auto. Qed.
Lemma fsqrt_fin x : fin (fsqrt x) -> fin x.
Proof. intros H. destruct (Bsqrt_correct 53 1024 _ _ mode_NE x) as (_ & F & _). unfold fin, fsqrt in *. rewrite F in H. destruct x as [s|s| |s m e b]; auto; discriminate. Qed.

Section Cutoff.
  Variables (n : nat) (sim : list fpoint).
  Hypotheses (Si : is_dsimplex n sim) (N64 : (n <= 64)%nat) (Good : Forall good_vertex sim).
  Let N := fsqrt (np_dmax (map edge_norm_sq (pairs sim))).
  Lemma vertex_ok p : In p sim -> length p = n /\ good_vertex p.
  Proof. destruct Si as (_ & _ & L). rewrite Forall_forall in *. auto. Qed.
  Lemma pairs_ne : pairs sim <> [].
  Proof. destruct Si as (A & L & _). destruct sim as [|x [|y l]]; cbn in *; try lia; discriminate. Qed.
  Lemma edge_ok p q : In p sim -> In q sim -> let N := fsqrt (edge_norm_sq (p, q)) in fin N /\ 0 <= val N /\ Rabs (val N - rdistance p q) <= pw (-43) * rdistance p q + pw (-500).
  Proof. intros Hp Hq. destruct (vertex_ok p Hp), (vertex_ok q Hq). apply edge_val; auto; lia. Qed.
  Lemma longest : fin N /\ 0 <= val N /\
    (exists p q, In p sim /\ In q sim /\ val N <= (1 + pw (-43)) * rdistance p q + pw (-500)) /\
    (forall p q, In p sim -> In q sim -> (1 - pw (-43)) * rdistance p q <= val N + pw (-500)).
  Proof. assert (NE : map edge_norm_sq (pairs sim) <> []) by (pose proof pairs_ne; destruct (pairs sim); [congruence|discriminate]).
    pose proof (np_dmax_in _ NE) as I. apply in_map_iff in I as ((p & q) & Epq & I). pose proof (in_pairs _ _ _ I) as (Ip & Iq).
    destruct (edge_ok p q Ip Iq) as (F & P & E). cbv zeta in *. unfold N. rewrite <- Epq. split; [auto|]. split; auto. split.
    - exists p, q. repeat (split; auto). rewrite abs_le in E. lra.
    - assert (Mx : forall p' q', In (p', q') (pairs sim) -> (1 - pw (-43)) * rdistance p' q' <= val (fsqrt (edge_norm_sq (p, q))) + pw (-500)).
      { intros p' q' I'. pose proof (in_pairs _ _ _ I') as (Ip' & Iq'). destruct (edge_ok p' q' Ip' Iq') as (F' & P' & E'). cbv zeta in *. rewrite abs_le in E'.
        assert (val (fsqrt (edge_norm_sq (p', q'))) <= val (fsqrt (edge_norm_sq (p, q)))); [|lra].
        apply fsqrt_mono; [apply fsqrt_fin, F'|apply fsqrt_fin, F|]. pose proof (np_dmax_dle (map edge_norm_sq (pairs sim)) (edge_norm_sq (p, q)) NE) as [H _].
        rewrite Epq in H at 1. assert (R : dle (np_dmax (map edge_norm_sq (pairs sim))) (np_dmax (map edge_norm_sq (pairs sim))) = true).
        { rewrite <- Epq. unfold dle. rewrite Bleb_correct by (apply fsqrt_fin, F). apply Rle_bool_true. lra. }
        specialize (H R). rewrite Forall_forall in H. apply (H (edge_norm_sq (p', q'))). apply in_map_iff. eauto. }
      intros p' q' Ip' Iq'. destruct (pairs_in sim p' q' Ip' Iq') as [->|[H|H]]; auto.
      + unfold rdistance. rewrite dist2_self, sqrt_0. pose proof (pw_pos (-500)). lra.
      + unfold rdistance. rewrite dist2_sym. apply Mx; auto. Qed.

  Hypothesis Extended : exists p q, In p sim /\ In q sim /\ pw (-400) <= rdistance p q.
  Lemma estimate_positive : pw (-402) <= val N.
  Proof. destruct longest as (_ & _ & _ & H). destruct Extended as (p & q & Ip & Iq & E). specialize (H p q Ip Iq).
    assert (pw (-43) <= / 2) by (change (/ 2) with (pw (-1)); apply pw_le; lia). assert (pw (-400) = 4 * pw (-402)) by (change 4 with (pw 2); rewrite pw_mul; reflexivity). assert (pw (-500) <= pw (-402)) by (apply pw_le; lia). pose proof (pw_pos (-43)). pose proof (pw_pos (-402)). nra. Qed.

  Lemma exceeded_eq c v : dfprime_exceeded (Some c) sim v = Ok (flt c (fdiv v N)).
  Proof. unfold dfprime_exceeded, fprime_estimate, N. pose proof pairs_ne. destruct (pairs sim); [congruence|reflexivity]. Qed.
  Variables (c v : double).
  Hypotheses (Fc : fin c) (Fv : fin v) (Pc : pw (-400) <= val c).
  Lemma exceeded_meaning : exists b, dfprime_exceeded (Some c) sim v = Ok b /\
    (b = true -> forall p q, In p sim -> In q sim -> val c * rdistance p q <= val v * (1 + pw (-40))) /\
    (b = false -> exists p q, In p sim /\ In q sim /\ val v <= val c * rdistance p q * (1 + pw (-40))).
  Proof. exists (flt c (fdiv v N)). split.
    { unfold dfprime_exceeded, fprime_estimate, N. pose proof pairs_ne. destruct (pairs sim); [congruence|reflexivity]. }
    destruct longest as (FN & _ & (p0 & q0 & Ip & Iq & Up) & Lo). pose proof estimate_positive as PN. pose proof (pw_pos (-402)) as P2. pose proof (pw_pos (-400)) as P4.
    assert (E43 : 0 < pw (-43) <= / 1024) by (split; [apply pw_pos|change (/ 1024) with (pw (-10)); apply pw_le; lia]). assert (E40 : pw (-40) = 8 * pw (-43)) by (change 8 with (pw 3); rewrite pw_mul; reflexivity).
    assert (T5 : pw (-500) <= pw (-43) * val N) by (apply Rle_trans with (pw (-43) * pw (-402)); [rewrite pw_mul; apply pw_le; lia|apply Rmult_le_compat_l; lra]).
    pose proof (pw_pos (-500)) as P5.
    pose proof (Bdiv_correct 53 1024 _ _ mode_NE v N ltac:(lra)) as D. change (round _ _ _ (val v / val N)) with (rnd (val v / val N)) in D.
    assert (NV : forall x, x = val v / val N -> val v = x * val N) by (intros x ->; field; lra).
    assert (Dist : forall p q, 0 <= rdistance p q) by (intros; apply sqrt_pos).
    assert (True_case : val c <= val v / val N -> forall p q, In p sim -> In q sim -> val c * rdistance p q <= val v * (1 + pw (-40))).
    { intros H p q Hp Hq. specialize (Lo p q Hp Hq). specialize (NV _ eq_refl). set (x := val v / val N) in *. rewrite NV, E40. specialize (Dist p q). set (r := rdistance p q) in *. set (k := pw (-43)) in *. set (M := val N) in *. set (C := val c) in *. clearbody r k M C x.
      assert (R : r <= M * (1 + 8 * k)). { assert (r <= (1 + k) * M + k * r) by lra. assert (r <= 2 * M) by nra. assert (k * r <= k * (2 * M)) by (apply Rmult_le_compat_l; lra). assert (0 <= k * M) by nra. lra. }
      assert (C * r <= C * (M * (1 + 8 * k))) by (apply Rmult_le_compat_l; lra). assert (0 <= M * (1 + 8 * k)) by nra. assert (C * (M * (1 + 8 * k)) <= x * (M * (1 + 8 * k))) by (apply Rmult_le_compat_r; lra). lra. }
    assert (False_case : rnd (val v / val N) <= val c -> exists p q, In p sim /\ In q sim /\ val v <= val c * rdistance p q * (1 + pw (-40))).
    { intros H. exists p0, q0. repeat (split; auto). specialize (NV _ eq_refl). set (x := val v / val N) in *. rewrite NV, E40. specialize (Dist p0 q0). set (r := rdistance p0 q0) in *.
      assert (X : x <= val c * (1 + 2 * pw (-43))).
      { destruct (Rle_lt_dec x 0) as [L|L]; [nra|]. pose proof (rnd_rel x) as E. rewrite (Rabs_pos_eq x) in E by lra. assert (pw (-53) <= / 1024 * pw (-43)) by (change (/ 1024) with (pw (-10)); rewrite pw_mul; apply pw_le; lia).
        assert (pw (-1075) <= / 1024 * pw (-43) * val c). { apply Rle_trans with (pw (-10) * pw (-43) * pw (-400)); [rewrite !pw_mul; apply pw_le; lia|]. change (/ 1024) with (pw (-10)). apply Rmult_le_compat_l; [|auto]. rewrite pw_mul. apply Rlt_le, pw_pos. }
        assert (pw (-53) * x <= / 1024 * pw (-43) * x) by (apply Rmult_le_compat_r; lra). rewrite abs_le in E. set (k := pw (-43)) in *. set (C := val c) in *. clearbody k C.
        assert (x <= 2 * C) by nra. assert (k * x <= k * (2 * C)) by (apply Rmult_le_compat_l; lra). assert (0 <= k * C) by nra. lra. }
      set (k := pw (-43)) in *. set (M := val N) in *. set (C := val c) in *. clearbody r k M C x.
      assert (R : M <= r * (1 + 4 * k)). { assert (M <= (1 + k) * r + k * M) by lra. assert (M <= 2 * r) by nra. assert (k * M <= k * (2 * r)) by (apply Rmult_le_compat_l; lra). assert (0 <= k * r) by nra. lra. }
      assert (A1 : x * M <= C * (1 + 2 * k) * M) by (apply Rmult_le_compat_r; lra). assert (A2 : C * (1 + 2 * k) * M <= C * (1 + 2 * k) * (r * (1 + 4 * k))) by (apply Rmult_le_compat_l; [nra|auto]).
      replace (C * (1 + 2 * k) * (r * (1 + 4 * k))) with (C * r * (1 + 6 * k + 8 * (k * k))) in A2 by ring. assert (k * k <= / 1024 * k) by (apply Rmult_le_compat_r; lra). assert (0 <= C * r) by nra. assert (C * r * (1 + 6 * k + 8 * (k * k)) <= C * r * (1 + 8 * k)) by (apply Rmult_le_compat_l; lra). lra. }
    destruct (Rlt_bool_spec (Rabs (rnd (val v / val N))) (pw 1024)) as [L|L].
    - destruct D as (V & F & _). change (Bdiv mode_NE v N) with (fdiv v N) in *. assert (Fd : fin (fdiv v N)) by (unfold fin in *; rewrite F; auto).
      unfold flt. rewrite Bltb_correct by auto. rewrite V. destruct (Rlt_bool_spec (val c) (rnd (val v / val N))) as [G|G].
      + split; [intros _|discriminate]. apply True_case. destruct (Rle_lt_dec (val c) (val v / val N)) as [|H]; auto. assert (rnd (val v / val N) <= rnd (val c)) by (apply rnd_le; lra). rewrite (rnd_id (val c)) in * by apply generic_format_B2R. lra.
      + split; [discriminate|]. intros _. apply False_case. auto.
    - change (Bdiv mode_NE v N) with (fdiv v N) in *.
      assert (Cm : val c < pw 1024) by (apply Rle_lt_trans with (Rabs (val c)); [apply Rle_abs|apply abs_B2R_lt_emax]).
      destruct (fdiv v N) as [s|s| |s m e b] eqn:Eq; try discriminate D. 
      assert (Es : s = xorb (Bsign v) (Bsign N)) by (injection D; auto). clear D.
      assert (SN : Bsign N = false). { destruct N as [[]|[]| |[] m e b]; auto; try discriminate FN; exfalso; cbn in PN; [lra|]. unfold F2R in PN; cbn in PN. pose proof (IZR_lt (Z.neg m) 0 ltac:(lia)). pose proof (pw_pos e). nra. }
      rewrite SN, Bool.xorb_false_r in Es. destruct s.
      + split; [|intros _; apply False_case].
        * intros H. exfalso. destruct c as [[]|[]| |[] ]; discriminate.
        * assert (val v <= 0). { destruct v as [[]|[]| |[] m e b]; cbn in Es |- *; try discriminate; try lra. unfold F2R. cbn. pose proof (IZR_lt (Z.neg m) 0 ltac:(lia)). pose proof (pw_pos e). nra. }
          assert (rnd (val v / val N) <= 0). { apply rnd_neg. unfold Rdiv. assert (0 < / val N) by (apply Rinv_0_lt_compat; lra). nra. } lra.
      + split; [intros _; apply True_case|].
        * destruct (Rle_lt_dec (val c) (val v / val N)) as [|H]; auto. exfalso.
          assert (0 <= val v). { destruct v as [[]|[]| |[] m e b]; cbn in Es |- *; try discriminate; try lra. unfold F2R. cbn. pose proof (IZR_lt 0 (Z.pos m) ltac:(lia)). pose proof (pw_pos e). nra. }
          assert (0 <= rnd (val v / val N)). { apply rnd_pos. unfold Rdiv. assert (0 < / val N) by (apply Rinv_0_lt_compat; lra). nra. }
          assert (rnd (val v / val N) <= rnd (val c)) by (apply rnd_le; lra). rewrite (rnd_id (val c)) in * by apply generic_format_B2R. rewrite Rabs_pos_eq in L by auto. lra.
        * intros H. exfalso. destruct c as [[]|[]| |[] ]; discriminate. Qed.
End Cutoff.
