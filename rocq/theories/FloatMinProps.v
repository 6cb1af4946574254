(** Consequences of the loop invariant in double precision. *)
From Verif Require Import Base BaseFacts NelderMead NelderMeadFacts NelderMeadProps AverageFacts.
From Coq Require Import ZArith Reals.
From Flocq Require Import Core BinarySingleNaN.
From Verif Require Import Float FloatVector FloatMin FloatOrder SpecFloatMin FloatMinFacts.
From Coq Require Import Lra.
Open Scope list_scope.

Lemma dmax2_dle x y b : dle (dmax2 x y) b = true <-> dle x b = true /\ dle y b = true.
Proof. unfold dmax2. destruct (is_nan x) eqn:Nx.
  { apply is_nan_iff in Nx. subst. rewrite !dle_ext. cbn. tauto. }
  destruct (is_nan y) eqn:Ny.
  { apply is_nan_iff in Ny. subst. rewrite !dle_ext. cbn. tauto. }
  assert (x <> nan) by (intros ->; discriminate). assert (y <> nan) by (intros ->; discriminate).
  destruct (flt x y) eqn:E; split; intros H1; try split; try tauto.
  - eapply dle_trans; [apply dlt_le, E|auto].
  - eapply dle_trans; [apply not_dlt; [| |exact E]; auto|auto]. Qed.
Lemma np_dmax_dle l b : l <> [] -> (dle (np_dmax l) b = true <-> Forall (fun v => dle v b = true) l).
Proof. destruct l as [|x l]; [congruence|]. intros _. cbn. revert x. induction l as [|y l IH]; intros x; cbn.
  - split; intros H; [auto|inversion H; auto].
  - rewrite IH. split; intros H.
    + inversion H as [|? ? A B]; subst. apply dmax2_dle in A as [A1 A2]. auto.
    + inversion H as [|? ? A B]; subst. inversion B; subst. constructor; auto. apply dmax2_dle; auto. Qed.

Lemma dclose_vsub tol x y : length x = length y ->
  (Forall (fun d => dle (Babs d) tol = true) (dvsub x y) <-> Forall2 (fun a b => dle (Babs (fsub a b)) tol = true) x y).
Proof. unfold dvsub. revert y. induction x as [|a x IH]; intros [|b y] L; cbn in *; try discriminate; [split; constructor|].
  rewrite Forall_cons_iff, IH by lia. split; [intros [A B]; constructor; auto|]. intros H. inversion H; auto. Qed.
Lemma dconverged_spec n p sim fsim : is_dsimplex n sim -> length fsim = S n ->
  (dconverged p sim fsim = Ok true <-> dtolerances_met (dp_xtol p) (dp_ftol p) sim fsim).
Proof. intros (N & L & F) Lf. unfold dconverged, dtolerances_met.
  destruct sim as [|x0 [|x1 xs]]; [cbn in L; lia..|]. destruct fsim as [|f0 [|f1 fs]]; [cbn in Lf; lia..|].
  cbn [tl hd]. set (rest := x1 :: xs). set (frest := f1 :: fs).
  assert (Fr : Forall (fun x => length x = length x0) rest).
  { inversion F as [|? ? A B]; subst. eapply Forall_impl; [|exact B]. cbn. intros; congruence. }
  assert (L0 : length x0 = n) by (inversion F; auto).
  assert (NE : map dabs (concat (map (fun x => dvsub x x0) rest)) <> []).
  { unfold rest. cbn. intros E. apply (f_equal (@length _)) in E. rewrite map_length, app_length in E.
    unfold dvsub in E. rewrite map2_length in E; inversion Fr; cbn in *; lia. }
  split.
  - intros E. match type of E with Ok ?b = _ => assert (E' : b = true) by congruence end. clear E. apply andb_true_iff in E' as [E1 E2].
    rewrite np_dmax_dle in E1 by auto. rewrite np_dmax_dle in E2 by discriminate. split.
    + apply Forall_forall. intros x Hx. apply dclose_vsub; [rewrite Forall_forall in Fr; auto|].
      rewrite Forall_forall in E1. apply Forall_forall. intros d Hd. apply E1. apply (in_map dabs). apply in_concat.
      exists (dvsub x x0). split; auto. apply in_map_iff. eauto.
    + apply Forall_forall. intros f Hf. rewrite Forall_forall in E2. apply E2. apply in_map_iff; eauto.
  - intros [E1 E2]. f_equal. apply andb_true_iff. split.
    + apply np_dmax_dle; auto. apply Forall_forall. intros d Hd. apply in_map_iff in Hd as (d' & <- & Hd).
      apply in_concat in Hd as (v & Hv & Hd). apply in_map_iff in Hv as (x & <- & Hx).
      rewrite Forall_forall in E1, Fr. specialize (E1 x Hx). apply dclose_vsub in E1; auto. rewrite Forall_forall in E1. unfold dabs. auto.
    + apply np_dmax_dle; [discriminate|]. apply Forall_forall. intros v Hv. apply in_map_iff in Hv as (f & <- & Hf).
      rewrite Forall_forall in E2. apply E2; auto. Qed.

(** the sign of a zero does not influence the derivative cutoff *)
Lemma finite_nonzero s m e (b : SpecFloat.bounded 53 1024 m e = true) : B2R (B754_finite s m e b) <> 0%R.
Proof. cbn. intros H. apply eq_0_F2R in H. destruct s; discriminate. Qed.
Lemma same_number_cases x y : same_number x y -> x = y \/ exists s t, x = B754_zero s /\ y = B754_zero t.
Proof. intros [A B]. rewrite dle_ext in A, B.
  destruct x as [sx|sx| |sx mx ex bx], y as [sy|sy| |sy my ey b_y]; try (right; eauto; fail);
    try destruct sx; try destruct sy; cbn [ext_of ext_le] in A, B; try tauto;
    try (exfalso; match type of A with context [B754_finite ?s ?m ?e ?b] => apply (finite_nonzero s m e b) end; cbn in *; lra);
    left; apply B2R_inj; auto; lra. Qed.
Lemma flt_zero_sign c s t : flt c (B754_zero s) = flt c (B754_zero t).
Proof. destruct c as [u|u| |u m e b]; try destruct u; auto. Qed.
Lemma fprime_same_number c sim v v' : same_number v v' -> dfprime_exceeded c sim v = dfprime_exceeded c sim v'.
Proof. intros Q. destruct (same_number_cases v v' Q) as [->|(s & t & -> & ->)]; auto.
  destruct c as [c|]; auto. unfold dfprime_exceeded, fprime_estimate. destruct (NelderMead.pairs sim) as [|e es]; auto. cbn [bind]. f_equal.
  destruct (fsqrt _) as [u|u| |u m k b]; cbn; auto; apply flt_zero_sign. Qed.

Section R.
  Variables (argsort : list double -> list nat) (np_dmin : list double -> double) (func : nat -> fpoint -> res double) (p : dparams) (n : nat) (initial : list fpoint).
  Hypothesis Hsort : dargsort_ok argsort.
  Hypothesis Hmin : dmin_ok np_dmin.
  Hypothesis Hi : is_dsimplex n initial.

  Lemma dentry_nan_free log sim fsim : dentry_ok n log sim fsim -> dnan_free log -> Forall (fun v => v <> nan) fsim.
  Proof. intros (S & L & _ & C) N. apply Forall_forall. intros v Hv.
    assert (H : exists x, In (x, v) (combine sim fsim)).
    { destruct S as (_ & Ls & _). clear -Hv L Ls. assert (E : length sim = length fsim) by lia. clear L Ls. revert sim E.
      induction fsim as [|a m IH]; intros [|b l] E; cbn in *; try discriminate; [destruct Hv|].
      destruct Hv as [<-|Hv]; [eauto|]. destruct (IH Hv l) as [x Hx]; [lia|]. eauto. }
    destruct H as [x Hx]. unfold dnan_free in N. rewrite Forall_forall in N. apply (N (x, v)). auto. Qed.
  Lemma np_dmin_sorted f fs : Sorted (fun x y => dnle x y = true) (f :: fs) -> Forall (fun v => v <> nan) (f :: fs) ->
    same_number (np_dmin (f :: fs)) f /\ In (np_dmin (f :: fs)) (f :: fs).
  Proof. intros S N. destruct (existsb is_nan (f :: fs)) eqn:B.
    { apply existsb_exists in B as (x & I & B). apply is_nan_iff in B. rewrite Forall_forall in N. subst. elim (N nan); auto. }
    pose proof (Hmin (f :: fs) ltac:(discriminate)) as M. rewrite B in M. destruct M as [I M]. split; auto. split; [apply M; left; auto|].
    apply dnle_dle; [rewrite Forall_forall in N; auto|]. exact (dsorted_hd_min (f :: fs) _ S I). Qed.

  Variables (r : dmin_result) (w : dworld).
  Hypothesis E : droot_nelder_mead argsort np_dmin func p initial = Ok (r, w).

  Lemma drun_best : dnan_free (dw_log w) ->
    (exists v, In (dr_pos r, v) (dw_log w) /\ same_number (dr_value r) v) /\
    In (dr_value r) (map snd (dw_log w)) /\
    (forall x u, In (x, u) (dw_log w) -> dle (dr_value r) u = true).
  Proof. intros N. destruct (droot_spec _ Hsort _ _ _ _ _ _ _ Hi E) as (s & Inv & X & W & B1 & B2 & St & R & _).
    destruct Inv as (En & Wc & FL & M & It & HO). rewrite W in *.
    pose proof (dentry_nan_free _ _ _ En N) as NF. pose proof En as ((N1 & Ls & F) & Lf & S & C).
    destruct (ds_sim s) as [|x0 xs] eqn:Es; [discriminate|]. destruct (ds_fsim s) as [|f0 fs] eqn:Ef; [discriminate|].
    rewrite R. cbn [dr_pos dr_value hd]. destruct (np_dmin_sorted f0 fs S NF) as [Sm I]. split; [|split].
    - exists f0. split; auto. apply C. left; auto.
    - assert (G : forall (l : list fpoint) (m : list double), length l = length m -> forall v : double, In v m -> exists x : fpoint, In (x, v) (combine l m)).
      { clear. induction l as [|a l IH]; intros [|b m] L v Hv; cbn in *; try discriminate; [destruct Hv|]. destruct Hv as [<-|Hv]; [eauto|]. destruct (IH m ltac:(lia) v Hv); eauto. }
      destruct (G (x0 :: xs) (f0 :: fs) ltac:(lia) _ I) as (x & Ix). apply C in Ix. apply in_map_iff. exists (x, np_dmin (f0 :: fs)). auto.
    - intros x u Hu. eapply dle_trans; [apply Sm|]. eapply M; eauto. Qed.

  Lemma drun_log : dr_num_fev r = length (dw_log w) /\
    (forall i x v, nth_error (dw_log w) i = Some (x, v) -> func i x = Ok v).
  Proof. destruct (droot_spec _ Hsort _ _ _ _ _ _ _ Hi E) as (s & Inv & X & W & B1 & B2 & St & R & _).
    destruct Inv as (En & Wc & FL & M & It & HO). rewrite W in *. split; [rewrite R; auto|]. exact FL. Qed.

  Lemma drun_start : exists f0 ext, dw_log w = combine initial f0 ++ ext /\ length f0 = length initial.
  Proof. destruct (droot_spec _ Hsort _ _ _ _ _ _ _ Hi E) as (s & Inv & X & W & B1 & B2 & St & R & Q). exact Q. Qed.

  Lemma drun_status :
    let maxfev := limit (dp_maxfev p) n in let maxiter := limit (dp_maxiter p) n in
    exists sim h, dr_simplex_history r = h ++ [sim] /\ is_dsimplex n sim /\ hd [] sim = dr_pos r /\
    (dr_success r = true <-> dr_status r = 0%Z) /\
    (dr_status r = 1%Z <-> (maxfev <= dr_num_fev r)%nat) /\
    (dr_status r = 2%Z <-> (dr_num_fev r < maxfev /\ maxiter <= dr_num_iter r)%nat) /\
    (dr_status r = 3%Z <-> (dr_num_fev r < maxfev /\ dr_num_iter r < maxiter)%nat /\
                          dfprime_exceeded (dp_fprime p) sim (dr_value r) = Ok true) /\
    (dr_status r = 0%Z <-> (dr_num_fev r < maxfev /\ dr_num_iter r < maxiter)%nat /\
                          dfprime_exceeded (dp_fprime p) sim (dr_value r) = Ok false).
  Proof. destruct (droot_spec _ Hsort _ _ _ _ _ _ _ Hi E) as (s & Inv & X & W & B1 & B2 & St & R & _).
    destruct Inv as (En & Wc & FL & M & It & HO). rewrite W in *.
    destruct HO as ((h & Hh) & _). exists (ds_sim s), h.
    assert (R1 : dr_success r = (dr_status r =? 0)%Z) by (rewrite R; auto).
    assert (R2 : dr_num_fev r = dw_calls w) by (rewrite R; auto).
    assert (R3 : dr_num_iter r = ds_iter s) by (rewrite R; auto).
    assert (R4 : dr_value r = np_dmin (ds_fsim s)) by (rewrite R; auto).
    assert (R5 : dr_simplex_history r = ds_hist s) by (rewrite R; auto).
    assert (R6 : dr_pos r = hd [] (ds_sim s)) by (rewrite R; auto).
    rewrite R1, R2, R3, R4, R5, R6. split; auto. split; [apply En|]. split; auto. split; [apply Z.eqb_eq|].
    unfold dnm_status in St. rewrite W in St. destruct (Nat.leb_spec (limit (dp_maxfev p) n) (dw_calls w)) as [A|A].
    { injection St as <-. repeat split; intros; try discriminate; try lia. }
    destruct (Nat.leb_spec (limit (dp_maxiter p) n) (ds_iter s)) as [A'|A'].
    { injection St as <-. repeat split; intros; try discriminate; try lia. }
    destruct (dfprime_exceeded (dp_fprime p) (ds_sim s) (np_dmin (ds_fsim s))) as [b|] eqn:Eb; cbn [bind] in St; [|discriminate].
    destruct b; injection St as <-; repeat split; intros; try discriminate; try lia;
      repeat match goal with H : _ /\ _ |- _ => destruct H end; congruence. Qed.

  Lemma drun_final : exists s, dentry_ok n (dw_log w) (ds_sim s) (ds_fsim s) /\ dexit_ok (limit (dp_maxfev p) n) (limit (dp_maxiter p) n) p s /\ ds_world s = w /\
    (exists h, dr_simplex_history r = h ++ [ds_sim s]) /\ (forall fh, dr_fun_history r = Some fh -> last fh [] = ds_fsim s) /\
    dr_pos r = hd [] (ds_sim s) /\ dr_value r = np_dmin (ds_fsim s) /\ dr_num_iter r = ds_iter s /\ dr_num_fev r = dw_calls w.
  Proof. destruct (droot_spec _ Hsort _ _ _ _ _ _ _ Hi E) as (s & Inv & X & W & B1 & B2 & St & R & _). exists s.
    destruct Inv as (En & Wc & FL & M & It & HO). rewrite W in *. destruct HO as ((h & Hh) & (g & Hg) & _).
    split; auto. split; auto. split; auto. split; [exists h; rewrite R; auto|]. split; [|rewrite R; auto].
    intros fh. rewrite R. cbn. destruct (dp_keep p); [|discriminate]. intros Q; injection Q as <-. rewrite Hg. apply last_last. Qed.

  (** success means converged *)
  Lemma drun_converged : dnan_free (dw_log w) -> dr_success r = true ->
    exists sim fsim h, dr_simplex_history r = h ++ [sim] /\ hd [] sim = dr_pos r /\
      Forall2 (fun x v => In (x, v) (dw_log w)) sim fsim /\
      (forall fh, dr_fun_history r = Some fh -> last fh [] = fsim) /\
      dtolerances_met (dp_xtol p) (dp_ftol p) sim fsim.
  Proof. intros N Sc. destruct drun_final as (s & En & X & W & (h & Hh) & Fh & Rp & Rv & Ri & Rf).
    destruct drun_status as (sim & h' & Hh' & Si & Hs & S0 & S1 & S2 & S3 & S4).
    rewrite Hh in Hh'. apply app_inj_tail in Hh' as [_ <-].
    apply S0 in Sc. destruct (proj1 S4 Sc) as [[L1 L2] Nf].
    pose proof (dentry_nan_free _ _ _ En N) as NF.
    exists (ds_sim s), (ds_fsim s), h. split; auto. split; auto. destruct En as (A & B & C & D). split.
    { apply (combine_Forall2 (fun xv => In xv (dw_log w))); auto. destruct A as (_ & A & _). lia. }
    split; auto. destruct X as [X|[X|[X|X]]].
    - rewrite W in X. lia.
    - lia.
    - exfalso. destruct (ds_fsim s) as [|f0 fs] eqn:Ef; [discriminate|]. destruct (np_dmin_sorted f0 fs C NF) as [Sm _].
      rewrite Rv, (fprime_same_number _ _ _ _ Sm) in Nf. cbn [hd] in X. congruence.
    - apply (dconverged_spec n) in X; auto. Qed.

  Lemma drun_counts : (dr_num_fev r <= limit (dp_maxfev p) n + n + 1 /\ n + 1 <= dr_num_fev r /\
    dr_num_iter r <= Nat.max 1 (limit (dp_maxiter p) n) /\ 1 <= dr_num_iter r)%nat /\
    length (dr_simplex_history r) = if dp_keep p then dr_num_iter r else 1%nat.
  Proof. destruct (droot_spec _ Hsort _ _ _ _ _ _ _ Hi E) as (s & Inv & X & W & B1 & B2 & St & R & _).
    destruct Inv as (En & Wc & FL & M & It & HO). rewrite W in *. destruct HO as (_ & _ & _ & HL & _).
    assert (R2 : dr_num_fev r = dw_calls w) by (rewrite R; auto).
    assert (R3 : dr_num_iter r = ds_iter s) by (rewrite R; auto).
    assert (R5 : dr_simplex_history r = ds_hist s) by (rewrite R; auto).
    rewrite R2, R3, R5. split; auto. lia. Qed.

  Lemma drun_history : dp_keep p = true -> exists fh, dr_fun_history r = Some fh /\
    Forall2 (fun sim fsim => is_dsimplex n sim /\ Sorted (fun x y => dnle x y = true) fsim /\
                             Forall2 (fun x v => In (x, v) (dw_log w)) sim fsim) (dr_simplex_history r) fh /\
    Sorted (fun f g => dnle (hd nan g) (hd nan f) = true) fh /\
    hd [] (last (dr_simplex_history r) []) = dr_pos r /\ np_dmin (last fh []) = dr_value r /\
    length fh = dr_num_iter r.
  Proof. intros K. destruct (droot_spec _ Hsort _ _ _ _ _ _ _ Hi E) as (s & Inv & X & W & B1 & B2 & St & R & _).
    destruct Inv as (En & Wc & FL & M & It & HO). rewrite W in *.
    destruct HO as ((h & Hh) & (g & Hg) & F2 & HL & HS). rewrite K in *. rewrite R. cbn.
    exists (ds_fhist s). split; auto. rewrite W in *. split.
    { eapply Forall2_impl; [|exact F2]. intros sim fsim (A & B & C & D). split; auto. split; auto.
      apply (combine_Forall2 (fun xv => In xv (dw_log w))); auto. destruct A as (_ & A & _). lia. }
    split; auto. rewrite <- (Forall2_length _ _ _ F2), HL, Hh, Hg, !last_last. auto. Qed.
End R.
