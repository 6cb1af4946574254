(** C70 in double precision, and the derivative cutoff (C60). *)
From Coq Require Import ZArith Reals.
From Flocq Require Import Core BinarySingleNaN.
From Verif Require Import Base BaseFacts NelderMead SpecStep Float FloatFacts FloatVector FloatVectorFacts FloatMin SpecFloatMin FloatMinFacts FloatMinProps FloatMinExtra SpecFloatStep FloatStepFacts FloatCellNum FloatEdge PropFloatMin.
From Coq Require Import Lra.
Import ListNotations.
Open Scope list_scope.

(** *** As [C70_run], in double precision: the candidates are those of Nelder and Mead up to
    rounding ([fon_line], [fhalfway]), while no coordinate is above 2^400. *)
Theorem C70_double_run : forall argsort np_dmin func p n initial r w, dargsort_ok argsort -> is_dsimplex n initial -> droot_nelder_mead argsort np_dmin func p initial = Ok (r, w) ->
  let maxfev := match dp_maxfev p with Some k => k | None => n * 200 end%nat in
  let maxiter := match dp_maxiter p with Some k => k | None => n * 200 end%nat in
  exists f0 start evaluations simplices, length f0 = length initial /\
    Permutation (combine initial f0) start /\ Sorted (fun x y => dnle (snd x) (snd y) = true) start /\
    nm_chain (fun x y => flt x y = true) (fun x y => dle x y = true) (fun x y => dnle x y = true) fon_line fhalfway
      (fcontinues p maxfev maxiter) start (S n) 1 evaluations simplices /\
    dw_log w = combine initial f0 ++ concat evaluations /\ dr_num_iter r = S (length evaluations) /\
    (exists best rest, last simplices start = best :: rest /\ dr_pos r = fst best) /\
    (dp_keep p = true -> dr_simplex_history r = map (map fst) (start :: simplices) /\ dr_fun_history r = Some (map (map snd) (start :: simplices))).
Proof. intros argsort np_dmin func p n initial r w Hs Hi E. exact (droot_chain argsort np_dmin Hs func n p initial r w Hi E). Qed.
Print Assumptions C70_double_run.

(** *** With a fake potential: two minimizations, the first of the sum of function and fake
    potential without a limit for the function values, the second of the function itself,
    starting from the last simplex of the first, stretched by 3/2 from its best vertex (up to
    rounding). *)
Theorem C60_two_runs : forall argsort np_dmin func fake p n initial r1 w1 r2 w2, dargsort_ok argsort -> is_dsimplex n initial ->
  drun_two_step argsort np_dmin func fake p initial = Ok ((r1, w1), (r2, w2)) ->
  droot_nelder_mead argsort np_dmin (fun k x => let! v := func k x in let! u := fake k x in Ok (fadd v u))
    {| dp_xtol := dp_xtol p; dp_ftol := B754_infinity false; dp_maxiter := dp_maxiter p; dp_maxfev := dp_maxfev p; dp_fprime := dp_fprime p; dp_keep := dp_keep p |} initial = Ok (r1, w1) /\
  exists h final start, dr_simplex_history r1 = h ++ [final] /\ hd [] final = dr_pos r1 /\ is_dsimplex n start /\
    Forall2 (fstretched (dr_pos r1)) final start /\
    droot_nelder_mead argsort np_dmin (fun k x => func (length (dw_log w1) + k)%nat x) p start = Ok (r2, w2).
Proof. intros argsort np_dmin func fake p n initial r1 w1 r2 w2 Hs Hi E. unfold drun_two_step in E.
  destruct (droot_nelder_mead argsort np_dmin _ _ initial) as [[r1' w1']|] eqn:E1; cbn [bind fst snd] in E; [|discriminate].
  destruct (drun_status _ _ _ _ _ _ Hs Hi _ _ E1) as (sim & h & Hh & Si & Hp & _). rewrite Hh, rev_app_distr in E. cbn [rev app] in E.
  destruct (droot_nelder_mead argsort np_dmin _ p _) as [[r2' w2']|] eqn:E2; cbn [bind] in E; [|discriminate]. injection E as <- <- <- <-.
  split; [first [reflexivity|exact E1]|]. exists h, sim, (dblow_up sim). split; [exact Hh|]. split; [exact Hp|]. split; [apply blow_up_simplex; exact Si|]. split.
  - unfold dblow_up. rewrite Hp. destruct Si as (N1 & Ls & F). assert (L0 : length (dr_pos r1') = n) by (rewrite <- Hp; destruct sim; [discriminate|exact (Forall_inv F)]).
    clear - F L0. induction sim as [|x sim IH]; constructor; [apply (blown_stretched n); auto; exact (Forall_inv F)|apply IH; exact (Forall_inv_tail F)].
  - destruct (droot_spec _ Hs _ _ _ _ _ _ _ Hi E1) as (s & Inv & X & W & _). destruct Inv as (_ & Wc & _). rewrite W in *. rewrite <- Wc. exact E2. Qed.
Print Assumptions C60_two_runs.

(** *** The derivative cutoff: exceeded means value / longest edge > cutoff, up to 2^-40. *)
Definition usable_simplex (n : nat) (sim : list (list double)) : Prop :=
  is_dsimplex n sim /\ (n <= 64)%nat /\
  Forall (Forall (fun x => is_finite x = true /\ (Rabs (B2R x) <= bpow radix2 400)%R)) sim /\
  exists p q, In p sim /\ In q sim /\ (bpow radix2 (-400) <= rdistance p q)%R.
Theorem C60_derivative_cutoff : forall n sim (c v : double), usable_simplex n sim -> is_finite c = true -> (bpow radix2 (-400) <= B2R c)%R ->
  exists b, dfprime_exceeded (Some c) sim v = Ok b /\
    (is_finite v = true -> b = true -> forall p q, In p sim -> In q sim -> (B2R c * rdistance p q <= B2R v * (1 + bpow radix2 (-40)))%R) /\
    (is_finite v = true -> b = false -> exists p q, In p sim /\ In q sim /\ (B2R v <= B2R c * rdistance p q * (1 + bpow radix2 (-40)))%R) /\
    (v = B754_infinity false -> b = true) /\ (v = B754_infinity true \/ v = B754_nan -> b = false).
Proof. intros n sim c v (Si & N & G & X) Fc Pc. destruct (is_finite v) eqn:Fv.
  - destruct (exceeded_meaning n sim Si N G X c v Fc Fv Pc) as (b & E & A & B). exists b. split; [exact E|]. split; [auto|]. split; [auto|]. split; [intros ->; discriminate|]. intros [->| ->]; discriminate.
  - destruct (longest n sim Si N G) as (FN & _). pose proof (estimate_positive n sim Si N G X) as PN. pose proof (exceeded_eq n sim Si N G c v) as Es.
    set (N0 := fsqrt _) in *. exists (flt c (fdiv v N0)). split; [exact Es|]. clear Es. split; [discriminate|]. split; [discriminate|].
    assert (SN : exists m e H, N0 = B754_finite false m e H).
    { pose proof (pw_pos (-402)). destruct N0 as [[]|[]| |[] m e b]; try discriminate FN; cbn in PN; try lra; [|eauto]. exfalso. unfold F2R in PN; cbn in PN. pose proof (IZR_lt (Z.neg m) 0 ltac:(lia)). pose proof (pw_pos e). nra. }
    destruct SN as (m & e & H & ->). split.
    + intros ->. destruct c as [| | |]; try discriminate Fc; reflexivity.
    + intros [->| ->]; destruct c as [[]| | |[]]; try discriminate Fc; reflexivity. Qed.
Print Assumptions C60_derivative_cutoff.

(** *** ... so a successful minimization ends with value / longest edge of the final simplex
    at most the cutoff, and one that fails for this reason (status 3) with more. *)
Theorem C60_cutoff_result : forall argsort np_dmin func p n initial r w (c : double),
  dargsort_ok argsort -> dmin_ok np_dmin -> is_dsimplex n initial -> droot_nelder_mead argsort np_dmin func p initial = Ok (r, w) ->
  dp_fprime p = Some c -> is_finite c = true -> (bpow radix2 (-400) <= B2R c)%R ->
  exists sim h, dr_simplex_history r = h ++ [sim] /\ hd [] sim = dr_pos r /\ is_dsimplex n sim /\
    (usable_simplex n sim -> is_finite (dr_value r) = true ->
      (dr_success r = true -> exists x y, In x sim /\ In y sim /\ (B2R (dr_value r) <= B2R c * rdistance x y * (1 + bpow radix2 (-40)))%R) /\
      (dr_status r = 3%Z -> forall x y, In x sim -> In y sim -> (B2R c * rdistance x y <= B2R (dr_value r) * (1 + bpow radix2 (-40)))%R)).
Proof. intros argsort np_dmin func p n initial r w c Hs Hm Hi E Ec Fc Pc. destruct (C60_status _ _ _ _ _ _ _ _ Hs Hm Hi E) as (sim & h & Eh & Si & Hd & A & _ & _ & S3 & S0).
  exists sim, h. split; [exact Eh|]. split; [exact Hd|]. split; [exact Si|]. intros U Fv. rewrite Ec in S0, S3. destruct (C60_derivative_cutoff n sim c (dr_value r) U Fc Pc) as (b & Eb & T & F & _). split.
  - intros Su. apply A in Su. apply S0 in Su as (_ & Su). apply (F Fv). rewrite Eb in Su. injection Su as ->. reflexivity.
  - intros St. apply S3 in St as (_ & St). apply (T Fv). rewrite Eb in St. injection St as ->. reflexivity. Qed.
Print Assumptions C60_cutoff_result.

(** *** Without a cutoff, status 3 does not occur. *)
Theorem C60_no_cutoff : forall argsort np_dmin func p n initial r w,
  dargsort_ok argsort -> dmin_ok np_dmin -> is_dsimplex n initial -> droot_nelder_mead argsort np_dmin func p initial = Ok (r, w) -> dp_fprime p = None -> dr_status r <> 3%Z.
Proof. intros argsort np_dmin func p n initial r w Hs Hm Hi E Ec St. destruct (C60_status _ _ _ _ _ _ _ _ Hs Hm Hi E) as (sim & h & _ & _ & _ & _ & _ & _ & S3 & _).
  destruct (proj1 S3 St) as (_ & X). rewrite Ec in X. discriminate. Qed.
Print Assumptions C60_no_cutoff.

(** hypotheses met: a run in two dimensions with 27 iterations and 53 evaluations, in which
    every simplex is bounded by 32 *)
Definition c70_g (x : list double) : double := match x with [a; b] => let s := fsub a (of_int 3) in let t := fsub b (of_int 2) in fadd (fmul s s) (fmul t t) | _ => nan end.
Definition c70_tri : list (list double) := [[of_int 0; of_int 0]; [of_int 1; of_int 0]; [of_int 0; of_int 1]].
Lemma bounded_bool ps : forallb (forallb (fun c => dle (dabs c) (of_int 32))) ps = true -> bounded_by (IZR 32) ps.
Proof. intros H. split; [split; [apply Rle_trans with (pw 0); [apply pw_le; lia|cbn; lra]|apply Rle_trans with (pw 5); [cbn; lra|apply pw_le; lia]]|].
  apply Forall_forall. intros p Hp. apply Forall_forall. intros c Hc. rewrite forallb_forall in H. specialize (H p Hp). rewrite forallb_forall in H. specialize (H c Hc).
  assert (F : is_finite c = true) by (destruct c as [| [] | |]; auto; vm_compute in H; discriminate). split; auto.
  destruct (of_int_val 32 ltac:(cbn; lia)) as (F2 & V2). unfold dle, dabs in H. rewrite Bleb_correct in H; auto; [|rewrite is_finite_Babs; auto]. rewrite V2, B2R_Babs in H.
  destruct (Rle_bool_spec (Rabs (val c)) (IZR 32)); [auto|discriminate]. Qed.
Theorem C70_double_hypotheses_met : dargsort_ok stable_dargsort /\ is_dsimplex 2 c70_tri /\
  exists r w, droot_nelder_mead stable_dargsort np_min (fun _ x => Ok (c70_g x)) (mk_dparams (of_dyadic 1 (-10)) (of_dyadic 1 (-10)) (Some 40%nat) (Some 200%nat) None true) c70_tri = Ok (r, w) /\
    dr_num_iter r = 27%nat /\ length (dw_log w) = 53%nat /\ dr_success r = true /\ Forall (bounded_by (IZR 32)) (dr_simplex_history r).
Proof. split; [exact stable_dargsort_ok|]. split; [split; [lia|split; [reflexivity|apply Forall_forall; intros x [<-|[<-|[<-|[]]]]; reflexivity]]|].
  destruct (mini_checks_ok (fun r w => (dr_num_iter r =? 27)%nat && (length (dw_log w) =? 53)%nat && dr_success r && forallb (forallb (forallb (fun c => dle (dabs c) (of_int 32)))) (dr_simplex_history r))
    (droot_nelder_mead stable_dargsort np_min (fun _ x => Ok (c70_g x)) (mk_dparams (of_dyadic 1 (-10)) (of_dyadic 1 (-10)) (Some 40%nat) (Some 200%nat) None true) c70_tri)) as (r & w & E & C); [vm_compute; reflexivity|].
  exists r, w. split; [exact E|]. clear E. rewrite !andb_true_iff, !Nat.eqb_eq in C. destruct C as (((A & B) & C) & D). repeat (split; [assumption|]).
  apply Forall_forall. intros s Hs. rewrite forallb_forall in D. apply bounded_bool, D, Hs. Qed.
Print Assumptions C70_double_hypotheses_met.

(** hypotheses met by two minimizations of x * x from {1, 2}, with the fake potential 1 - x *)
Definition c60_two : res ((dmin_result * dworld) * (dmin_result * dworld)) :=
  drun_two_step stable_dargsort np_min (fun _ x => Ok (match x with [c] => fmul c c | _ => nan end)) (fun _ x => Ok (match x with [c] => fsub fone c | _ => nan end))
    (mk_dparams (of_dyadic 1 (-10)) (of_dyadic 1 (-10)) (Some 80%nat) (Some 500%nat) None true) [[of_int 1]; [of_int 2]].
Theorem C60_two_runs_hypotheses_met : is_dsimplex 1 [[of_int 1]; [of_int 2]] /\ exists r1 w1 r2 w2, c60_two = Ok ((r1, w1), (r2, w2)) /\
  dr_success r1 = true /\ dr_success r2 = true /\ (10 < length (dw_log w1))%nat /\ (10 < length (dw_log w2))%nat /\ dle (of_dyadic 3 (-3)) (hd nan (dr_pos r1)) = true /\ dle (hd nan (dr_pos r2)) (of_dyadic 1 (-8)) = true.
Proof. split; [split; [lia|split; [reflexivity|apply Forall_forall; intros x [<-|[<-|[]]]; reflexivity]]|].
  assert (C : match c60_two with Ok ((r1, w1), (r2, w2)) => dr_success r1 && dr_success r2 && (10 <? length (dw_log w1))%nat && (10 <? length (dw_log w2))%nat && dle (of_dyadic 3 (-3)) (hd nan (dr_pos r1)) && dle (hd nan (dr_pos r2)) (of_dyadic 1 (-8)) | Err _ => false end = true) by (vm_compute; reflexivity).
  destruct c60_two as [[[r1 w1] [r2 w2]]|]; [|discriminate]. exists r1, w1, r2, w2. rewrite !andb_true_iff, !Nat.ltb_lt in C. tauto. Qed.
Print Assumptions C60_two_runs_hypotheses_met.

(** hypotheses met, with the cutoff 8: x * x from {1, 2} succeeds, |x| + 1 ends with status 3 *)
Definition c60_par : dparams := mk_dparams (of_dyadic 1 (-10)) (of_dyadic 1 (-10)) (Some 40%nat) (Some 200%nat) (Some (of_int 8)) true.
Definition c60_start : list (list double) := [[of_int 1]; [of_int 2]].
Definition final_checks (r : dmin_result) : bool :=
  match rev (dr_simplex_history r) with [[x]; [y]] :: _ => forallb (forallb (fun c => dle (dabs c) (of_int 32))) [[x]; [y]] && dle (of_dyadic 1 (-20)) (fsub y x) | _ => false end && is_finite (dr_value r).
Lemma final_usable r : final_checks r = true -> exists sim h, dr_simplex_history r = h ++ [sim] /\ usable_simplex 1 sim /\ is_finite (dr_value r) = true.
Proof. unfold final_checks. intros H. apply andb_true_iff in H as [H V]. destruct (rev (dr_simplex_history r)) as [|[|[|x [|? ?]] [|[|y [|? ?]] [|? ?]]] h] eqn:E; try discriminate H. apply andb_true_iff in H as [B D].
  exists [[x]; [y]], (rev h). split; [rewrite <- (rev_involutive (dr_simplex_history r)), E; reflexivity|]. split; auto. destruct (bounded_bool _ B) as (_ & Bd).
  assert (G : Forall (Forall (fun x => fin x /\ (Rabs (val x) <= pw 400)%R)) [[x]; [y]]).
  { eapply Forall_impl; [|exact Bd]. intros q Hq. eapply Forall_impl; [|exact Hq]. cbn beta. intros c (F & Hc). split; auto. eapply Rle_trans; [exact Hc|]. apply Rle_trans with (pw 5); [cbn; lra|apply pw_le; lia]. }
  split; [split; [lia|split; [reflexivity|repeat constructor]]|]. split; [lia|]. split; [exact G|]. exists [x], [y]. split; [left; auto|]. split; [right; left; auto|].
  pose proof (Forall_inv G) as Gx. pose proof (Forall_inv (Forall_inv_tail G)) as Gy. destruct (Forall_inv Gx) as (Fx & Bx). destruct (Forall_inv Gy) as (Fy & By).
  assert (Q : (pw 413 >= 4 * pw 400)%R) by (change 4%R with (pw 2); rewrite pw_mul; apply Rle_ge, pw_le; lia). pose proof (pw_pos 400).
  destruct (sub_rel y x Fy Fx ltac:(rewrite abs_le in *; lra)) as (F & e & He & Ve). assert (Fd : fin (of_dyadic 1 (-20)) /\ val (of_dyadic 1 (-20)) = pw (-20)) by (destruct (of_dyadic_val 1 (-20)) as (A1 & A2); [cbn; lia|lia|]; split; auto; rewrite A2; cbn; lra). destruct Fd as (Fd & Vd).
  unfold dle in D. rewrite Bleb_correct in D by auto. destruct (Rle_bool_spec (val (of_dyadic 1 (-20))) (val (fsub y x))) as [L|]; [|discriminate]. rewrite Vd, Ve in L.
  assert (pw (-53) <= / 2)%R by (change (/ 2)%R with (pw (-1)); apply pw_le; lia). pose proof (pw_pos (-20)). rewrite abs_le in He.
  assert (Dp : (pw (-20) <= 2 * (val y - val x))%R) by nra. unfold rdistance. cbn [combine map fold_right fst snd]. rewrite Rplus_0_r. replace ((val x - val y) ^ 2)%R with ((val y - val x) * (val y - val x))%R by ring. rewrite sqrt_square by nra.
  assert (pw (-400) <= pw (-21))%R by (apply pw_le; lia). assert (pw (-20) = 2 * pw (-21))%R by (change 2%R with (pw 1); rewrite pw_mul; reflexivity). lra. Qed.
Theorem C60_cutoff_hypotheses_met : is_finite (of_int 8) = true /\ (bpow radix2 (-400) <= B2R (of_int 8))%R /\ is_dsimplex 1 c60_start /\
  (exists r w, droot_nelder_mead stable_dargsort np_min (fun _ x => Ok (match x with [c] => fmul c c | _ => nan end)) c60_par c60_start = Ok (r, w) /\ dr_success r = true /\ dr_num_iter r = 12%nat /\
    exists sim h, dr_simplex_history r = h ++ [sim] /\ usable_simplex 1 sim /\ is_finite (dr_value r) = true) /\
  (exists r w, droot_nelder_mead stable_dargsort np_min (fun _ x => Ok (match x with [c] => fadd (Babs c) (of_int 1) | _ => nan end)) c60_par c60_start = Ok (r, w) /\ dr_status r = 3%Z /\ dr_num_iter r = 6%nat /\
    exists sim h, dr_simplex_history r = h ++ [sim] /\ usable_simplex 1 sim /\ is_finite (dr_value r) = true).
Proof. destruct (of_int_val 8 ltac:(cbn; lia)) as (F8 & V8). split; [exact F8|]. split; [rewrite V8; apply Rle_trans with (pw 3); [apply pw_le; lia|cbn; lra]|].
  split; [split; [lia|split; [reflexivity|apply Forall_forall; intros x [<-|[<-|[]]]; reflexivity]]|]. split.
  - destruct (mini_checks_ok (fun r w => dr_success r && (dr_num_iter r =? 12)%nat && final_checks r) (droot_nelder_mead stable_dargsort np_min (fun _ x => Ok (match x with [c] => fmul c c | _ => nan end)) c60_par c60_start)) as (r & w & E & C); [vm_compute; reflexivity|].
    exists r, w. split; [exact E|]. clear E. rewrite !andb_true_iff, !Nat.eqb_eq in C. destruct C as ((A & B) & C). split; [exact A|]. split; [exact B|]. exact (final_usable r C).
  - destruct (mini_checks_ok (fun r w => (dr_status r =? 3)%Z && (dr_num_iter r =? 6)%nat && final_checks r) (droot_nelder_mead stable_dargsort np_min (fun _ x => Ok (match x with [c] => fadd (Babs c) (of_int 1) | _ => nan end)) c60_par c60_start)) as (r & w & E & C); [vm_compute; reflexivity|].
    exists r, w. split; [exact E|]. clear E. rewrite !andb_true_iff, !Nat.eqb_eq, Z.eqb_eq in C. destruct C as ((A & B) & C). split; [exact A|]. split; [exact B|]. exact (final_usable r C). Qed.
Print Assumptions C60_cutoff_hypotheses_met.
