(** An argsort and a minimum for doubles, the two-step minimization and a concrete run. *)
From Verif Require Import Base BaseFacts NelderMead QueueFacts.
From Coq Require Import ZArith Reals.
From Flocq Require Import Core BinarySingleNaN Relative.
From Verif Require Import Float FloatVector FloatMin FloatOrder SpecFloatMin FloatMinFacts FloatMinProps.
From Coq Require Import Lra.
Open Scope list_scope.

Definition stable_dargsort (l : list double) : list nat :=
  sort_by (fun i j => dnle (nth i l nan) (nth j l nan)) (seq 0 (length l)).
Lemma stable_dargsort_ok : dargsort_ok stable_dargsort.
Proof. intros l. split; [apply sort_perm|]. unfold stable_dargsort.
  set (leb' := fun i j => dnle (nth i l nan) (nth j l nan)).
  assert (S : sorted leb' (sort_by leb' (seq 0 (length l)))).
  { apply sort_sorted; unfold leb'; intros; [apply dnle_total|eapply dnle_trans; eauto]. }
  induction S as [|x m Hx S IH]; cbn; constructor; auto.
  destruct m as [|y m]; cbn; constructor. inversion Hx; auto. Qed.

Definition np_min (l : list double) : double := match l with [] => nan | x :: l' => fold_left fmin l' x end.
Lemma np_min_ok : dmin_ok np_min.
Proof. intros [|x l] N; [congruence|]. clear N. cbn [np_min]. revert x. induction l as [|y l IH]; intros x.
  - cbn. destruct (is_nan x) eqn:B; cbn; [apply is_nan_iff; auto|]. split; auto. intros z [<-|[]]. apply dle_refl. intros ->. discriminate.
  - cbn [fold_left]. specialize (IH (fmin x y)). unfold fmin in *. cbn [existsb] in *.
    destruct (is_nan x) eqn:Bx; cbn [orb]; [rewrite Bx in IH; cbn in IH; auto|].
    destruct (is_nan y) eqn:By; cbn [orb]; [rewrite By in IH; cbn in IH; auto|].
    assert (Nx : x <> nan) by (intros ->; discriminate). assert (Ny : y <> nan) by (intros ->; discriminate).
    destruct (flt y x) eqn:F.
    + rewrite By in IH. cbn in IH. destruct (existsb is_nan l); auto. destruct IH as [I M]. split; [right; auto|].
      intros z [<-|H]; [|auto]. eapply dle_trans; [apply M; left; auto|]. apply dlt_le; auto.
    + rewrite Bx in IH. cbn in IH. destruct (existsb is_nan l); auto. destruct IH as [I M]. split; [destruct I; [left|right; right]; auto|].
      intros z [<-|[<-|H]]; [apply M; left; auto| |apply M; right; auto]. eapply dle_trans; [apply M; left; auto|]. apply not_dlt; auto. Qed.

(** the first vertex of the enlarged simplex is the best vertex of the first run *)
Lemma sub_self x : is_finite x = true -> fsub x x = B754_zero false.
Proof. destruct x as [s|s| |s m e b]; try discriminate; intros _; [destruct s; reflexivity|].
  pose proof (Bminus_correct 53 1024 Hprec Hemax mode_NE (B754_finite s m e b) (B754_finite s m e b) eq_refl eq_refl) as H.
  rewrite Rminus_diag_eq, round_0, Rabs_R0, Rlt_bool_true in H; auto; try apply bpow_gt_0; try apply valid_rnd_round_mode.
  destruct H as (H1 & H2 & H3). apply B2R_Bsign_inj; auto. unfold fsub. rewrite H3, Rcompare_Eq; auto. destruct s; reflexivity. Qed.
Lemma blow_up_vertex x : is_finite x = true -> same_number (fadd x (fmul dthree_halves (fsub x x))) x.
Proof. intros F. rewrite sub_self by auto. assert (fmul dthree_halves (B754_zero false) = B754_zero false) as -> by (vm_compute; reflexivity).
  destruct x as [s|s| |s m e b]; try discriminate; [destruct s; split; reflexivity|].
  assert (fadd (B754_finite s m e b) (B754_zero false) = B754_finite s m e b) as -> by reflexivity.
  split; apply dle_refl; discriminate. Qed.
Lemma blow_up_best sim : Forall (fun c => is_finite c = true) (hd [] sim) -> Forall2 same_number (hd [] (dblow_up sim)) (hd [] sim).
Proof. destruct sim as [|x0 sim]; cbn; [constructor|]. intros F. unfold dvadd, dvscale, dvsub. induction F as [|c x0 Hc F IH]; cbn; constructor; auto. apply blow_up_vertex; auto. Qed.
Lemma blow_up_simplex n sim : is_dsimplex n sim -> is_dsimplex n (dblow_up sim).
Proof. intros (N & L & F). split; auto. unfold dblow_up. rewrite map_length. split; auto. apply Forall_forall. intros y Hy. apply in_map_iff in Hy as (x & <- & Hx).
  rewrite Forall_forall in F. assert (H0 : length (hd [] sim) = n) by (destruct sim; [cbn in L; lia|apply F; left; auto]).
  unfold dvadd, dvscale, dvsub. rewrite map2_length; rewrite ?map_length, ?map2_length; rewrite ?H0, ?(F x Hx); auto. Qed.

(** rounding of the differences in the convergence test *)
Lemma close_real a b t : is_finite a = true -> is_finite b = true -> is_finite t = true -> (bpow radix2 (-1000) <= B2R t)%R ->
  dle (Babs (fsub a b)) t = true -> (Rabs (B2R a - B2R b) <= B2R t * (1 + bpow radix2 (-52)))%R.
Proof. intros Fa Fb Ft T H.
  pose proof (Bminus_correct 53 1024 Hprec Hemax mode_NE a b Fa Fb) as C. unfold fsub in H.
  destruct (Rlt_bool _ _) eqn:O in C.
  - destruct C as (C1 & C2 & _). unfold dle in H. rewrite Bleb_correct in H; auto; [|rewrite is_finite_Babs; auto].
    rewrite B2R_Babs, C1 in H. destruct (Rle_bool_spec (Rabs (round radix2 (SpecFloat.fexp 53 1024) (round_mode mode_NE) (B2R a - B2R b))) (B2R t)) as [H'|]; [|discriminate]. clear H.
    set (d := (B2R a - B2R b)%R) in *.
    assert (P52 : (bpow radix2 (-52) = / 4503599627370496)%R) by (cbn; lra).
    destruct (Rle_lt_dec (bpow radix2 (-1022)) (Rabs d)) as [L|L].
    + pose proof (relative_error_N_FLT radix2 (-1074) 53 ltac:(reflexivity) (fun x => negb (Z.even x)) d) as R.
      replace (-1074 + 53 - 1)%Z with (-1022)%Z in R by lia. specialize (R L).
      change (round radix2 (SpecFloat.fexp 53 1024) (round_mode mode_NE) d) with (round radix2 (FLT_exp (-1074) 53) ZnearestE d) in H'. fold ZnearestE in R.
      pose proof (Rabs_triang_inv d (d - round radix2 (FLT_exp (-1074) 53) ZnearestE d)) as T1.
      replace (d - (d - round radix2 (FLT_exp (-1074) 53) ZnearestE d))%R with (round radix2 (FLT_exp (-1074) 53) ZnearestE d) in T1 by ring.
      rewrite (Rabs_minus_sym d) in T1. replace (- (53) + 1)%Z with (-52)%Z in R by lia. rewrite P52 in *.
      pose proof (Rabs_pos d). lra.
    + assert (bpow radix2 (-1022) < bpow radix2 (-1000))%R by (apply bpow_lt; lia). pose proof (bpow_gt_0 radix2 (-1000)). rewrite P52. lra.
  - destruct C as [C _]. exfalso. apply dle_ext in H.
    destruct (Bminus mode_NE a b) as [s|s| |s m e bd]; try discriminate C. destruct t; try discriminate Ft; exact H. Qed.

(** Concrete runs: x*x from {1, 2}, and the constant 0 from {1, 2} with zero tolerances. *)
Definition dpt (z : Z) : fpoint := [of_int z].
Definition square (x : fpoint) : double := match x with [c] => fmul c c | _ => nan end.
Definition dpar (xtol ftol : double) (k : nat) : dparams := mk_dparams xtol ftol (Some k) (Some 500%nat) None true.
Definition mini_checks (check : dmin_result -> dworld -> bool) (r : res (dmin_result * dworld)) : bool :=
  match r with Ok (r, w) => check r w | Err _ => false end.
Lemma mini_checks_ok check r : mini_checks check r = true -> exists r' w, r = Ok (r', w) /\ check r' w = true.
Proof. destruct r as [[r' w]|e]; cbn; [eauto|discriminate]. Qed.
Definition is_zero (x : double) : bool := match x with B754_zero _ => true | _ => false end.
Lemma square_run : exists r w, droot_nelder_mead stable_dargsort np_min (fun _ x => Ok (square x)) (dpar (of_dyadic 1 (-10)) (of_dyadic 1 (-10)) 80) [dpt 1; dpt 2] = Ok (r, w) /\
  dr_success r = true /\ is_zero (hd nan (dr_pos r)) = true /\ is_zero (dr_value r) = true /\ (10 < dr_num_iter r)%nat /\ dnan_free (dw_log w).
Proof. destruct (mini_checks_ok (fun r w => dr_success r && is_zero (hd nan (dr_pos r)) && is_zero (dr_value r) && (10 <? dr_num_iter r)%nat && forallb (fun xv => negb (is_nan (snd xv))) (dw_log w))
    (droot_nelder_mead stable_dargsort np_min (fun _ x => Ok (square x)) (dpar (of_dyadic 1 (-10)) (of_dyadic 1 (-10)) 80) [dpt 1; dpt 2])) as (r & w & E & C); [vm_compute; reflexivity|].
  exists r, w. split; [exact E|]. clear E. rewrite !andb_true_iff, Nat.ltb_lt, forallb_forall in C. destruct C as ((((A & B) & C) & D) & F).
  repeat (split; [assumption|]). apply Forall_forall. intros [x v] I Q. specialize (F (x, v) I). cbn in Q, F. subst v. discriminate F. Qed.
Lemma constant_run : exists r w sim, droot_nelder_mead stable_dargsort np_min (fun _ x => Ok (of_int 0)) (dpar (of_int 0) (of_int 0) 80) [dpt 1; dpt 2] = Ok (r, w) /\
  dr_success r = true /\ (exists h, dr_simplex_history r = h ++ [sim]) /\ sim = [dpt 1; dpt 1].
Proof. destruct (mini_checks_ok (fun r w => dr_success r && match rev (dr_simplex_history r) with [[x]; [y]] :: _ => Beqb x (of_int 1) && Beqb y (of_int 1) | _ => false end)
    (droot_nelder_mead stable_dargsort np_min (fun _ x => Ok (of_int 0)) (dpar (of_int 0) (of_int 0) 80) [dpt 1; dpt 2])) as (r & w & E & C); [vm_compute; reflexivity|].
  apply andb_true_iff in C as [A B]. destruct (rev (dr_simplex_history r)) as [|[|[|x [|? ?]] [|[|y [|? ?]] [|? ?]]] h] eqn:H; try discriminate B.
  exists r, w, [[x]; [y]]. split; [exact E|]. split; [exact A|]. split.
  - exists (rev h). rewrite <- (rev_involutive (dr_simplex_history r)), H. reflexivity.
  - apply andb_true_iff in B as [B1 B2]. assert (Q : forall z, Beqb z (of_int 1) = true -> z = of_int 1).
    { intros z Hz. assert (Fz : is_finite z = true) by (destruct z as [s|[|]| |s m e b]; auto; discriminate Hz).
      rewrite Beqb_correct in Hz; auto. apply Req_bool_spec in Hz || (destruct (Req_bool_spec (B2R z) (B2R (of_int 1))) as [Hz'|]; [|discriminate]).
      apply B2R_inj; auto. apply is_finite_strict_B2R. rewrite Hz'. apply finite_nonzero. }
    rewrite (Q x B1), (Q y B2). reflexivity. Qed.
