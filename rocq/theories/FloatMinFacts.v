(** Facts about the model of the Nelder-Mead minimization in double precision. *)
From Verif Require Import Base BaseFacts NelderMead NelderMeadFacts AverageFacts.
From Coq Require Import ZArith.
From Flocq Require Import Core BinarySingleNaN.
From Verif Require Import Float FloatVector FloatMin FloatOrder SpecFloatMin.
Open Scope list_scope.

Section NM.
  Variable argsort : list double -> list nat.
  Hypothesis Hsort : dargsort_ok argsort.

  Lemma dsort_spec sim fsim sim' fsim' : length sim = length fsim -> dsort_simplex argsort sim fsim = (sim', fsim') ->
    Permutation sim' sim /\ Permutation fsim' fsim /\ Permutation (combine sim' fsim') (combine sim fsim) /\
    length sim' = length fsim' /\ Sorted (fun x y => dnle x y = true) fsim'.
  Proof. intros L E. unfold dsort_simplex in E. injection E as <- <-. destruct (Hsort fsim) as [P S].
    split; [apply take_perm; rewrite L; auto|]. split; [apply take_perm; auto|].
    split; [|split; [unfold take; rewrite !map_length; auto|exact S]].
    rewrite take_combine by auto.
    apply (take_perm (combine sim fsim) ([], nan)). rewrite combine_length, L, Nat.min_id. auto. Qed.

  Lemma dsorted_hd_min fsim x : Sorted (fun x y => dnle x y = true) fsim -> In x fsim -> dnle (hd nan fsim) x = true.
  Proof. intros S H. apply Sorted_StronglySorted in S; [|intros a b c; apply dnle_trans].
    destruct fsim as [|a l]; [destruct H|]. cbn. destruct H as [<-|H]; [apply dnle_refl|].
    inversion S as [|? ? ? F]; subst. rewrite Forall_forall in F. auto. Qed.

  Variable np_dmin : list double -> double.
  Variable func : nat -> fpoint -> res double.

  (** every logged evaluation is the oracle's answer to that dcall *)
  Definition dfaithful (start : nat) (log : list (fpoint * double)) : Prop :=
    forall i x v, nth_error log i = Some (x, v) -> func (start + i)%nat x = Ok v.
  Lemma dfaithful_app k l l' : dfaithful k l -> dfaithful (k + length l) l' -> dfaithful k (l ++ l').
  Proof. intros A B i x v E. destruct (Nat.lt_ge_cases i (length l)) as [L|L].
    - rewrite nth_error_app1 in E by auto. auto.
    - rewrite nth_error_app2 in E by auto. apply B in E. rewrite <- E. f_equal. lia. Qed.

  (** evaluations only append to the log; the counter is the length of the log *)
  Definition dextends (w w' : dworld) (ext : list (fpoint * double)) : Prop :=
    dw_log w' = dw_log w ++ ext /\ dw_calls w' = (dw_calls w + length ext)%nat /\ dfaithful (dw_calls w) ext.
  Lemma dextends_refl w : dextends w w [].
  Proof. split; [rewrite app_nil_r; auto|]. split; [cbn; lia|]. intros [|i] x v; discriminate. Qed.
  Lemma dextends_trans w w' w'' e e' : dextends w w' e -> dextends w' w'' e' -> dextends w w'' (e ++ e').
  Proof. intros (A & B & F) (C & D & F'). split; [rewrite C, A, app_assoc; auto|].
    split; [rewrite D, B, app_length; lia|]. apply dfaithful_app; auto. rewrite <- B. auto. Qed.

  Lemma dcall_spec w x w' v : dcall func w x = Ok (w', v) -> dextends w w' [(x, v)] /\ func (dw_calls w) x = Ok v.
  Proof. unfold dcall. destruct (func (dw_calls w) x) as [u|e] eqn:F; cbn; [|discriminate]. intros E. injection E as <- <-.
    split; auto. split; cbn; auto. split; [lia|]. intros [|[|i]] y u' E; cbn in E; try discriminate.
    injection E as <- <-. rewrite Nat.add_0_r. auto. Qed.
  Lemma dcall_err w x e : dcall func w x = Err e -> func (dw_calls w) x = Err e.
  Proof. unfold dcall. destruct (func (dw_calls w) x) as [u|e']; cbn; congruence. Qed.

  Lemma dcall_all_spec xs : forall w w' vs, dcall_all func w xs = Ok (w', vs) ->
    length vs = length xs /\ dextends w w' (combine xs vs).
  Proof. induction xs as [|x xs IH]; cbn; intros w w' vs E.
    - injection E as <- <-. split; auto. apply dextends_refl.
    - destruct (dcall func w x) as [[w1 v]|e] eqn:C; cbn in E; [|discriminate]. apply dcall_spec in C as [C _].
      destruct (dcall_all func w1 xs) as [[w2 us]|e] eqn:C2; cbn in E; [|discriminate]. injection E as <- <-.
      apply IH in C2 as [L X]. split; [cbn; auto|]. apply (dextends_trans _ _ _ _ _ C X). Qed.
  Lemma dcall_all_err xs : forall w e, dcall_all func w xs = Err e -> exists k x, func k x = Err e.
  Proof. induction xs as [|x xs IH]; cbn; intros w e E; [discriminate|].
    destruct (dcall func w x) as [[w1 v]|e1] eqn:C; cbn in E.
    - destruct (dcall_all func w1 xs) as [[w2 us]|e2] eqn:C2; cbn in E; [discriminate|]. injection E as <-. eauto.
    - injection E as <-. apply dcall_err in C. eauto. Qed.

  Lemma dshrink_spec x0 xs : forall w w' ys vs, dshrink_loop func x0 w xs = Ok (w', ys, vs) ->
    ys = map (shrunk x0) xs /\ length vs = length xs /\ dextends w w' (combine ys vs).
  Proof. induction xs as [|x xs IH]; cbn; intros w w' ys vs E.
    - injection E as <- <- <-. split; auto. split; auto. apply dextends_refl.
    - destruct (dcall func w _) as [[w1 v]|e] eqn:C; cbn in E; [|discriminate]. apply dcall_spec in C as [C _].
      destruct (dshrink_loop func x0 w1 xs) as [[[w2 ys'] us]|e] eqn:C2; cbn in E; [|discriminate]. injection E as <- <- <-.
      apply IH in C2 as (-> & L & X). split; [auto|]. split; [cbn; auto|]. apply (dextends_trans _ _ _ _ _ C X). Qed.
  Lemma dshrink_err x0 xs : forall w e, dshrink_loop func x0 w xs = Err e -> exists k x, func k x = Err e.
  Proof. induction xs as [|x xs IH]; cbn; intros w e E; [discriminate|].
    destruct (dcall func w _) as [[w1 v]|e1] eqn:C; cbn in E.
    - destruct (dshrink_loop func x0 w1 xs) as [[[w2 ys'] us]|e2] eqn:C2; cbn in E; [discriminate|]. injection E as <-. eauto.
    - injection E as <-. apply dcall_err in C. eauto. Qed.

  (** outcome of one move, before sorting *)
  Definition dmove_outcome (n : nat) (sim : list fpoint) (fsim : list double) (ext : list (fpoint * double))
      (sim' : list fpoint) (fsim' : list double) : Prop :=
    (exists y v, length y = n /\ sim' = set_last sim y /\ fsim' = set_last fsim v /\
       In (y, v) ext /\
       (hd nan fsim <> nan -> last fsim nan <> nan ->
        forall x u, In (x, u) ext -> u <> nan -> dle v u = true \/ dle (hd nan fsim) u = true)) \/
    (exists ys vs, sim' = hd [] sim :: ys /\ fsim' = hd nan fsim :: vs /\
       ys = map (shrunk (hd [] sim)) (tl sim) /\
       length vs = length ys /\
       (forall xv, In xv (combine ys vs) -> In xv ext) /\
       (hd nan fsim <> nan -> last fsim nan <> nan ->
        forall x u, In (x, u) ext -> u <> nan -> In u vs \/ dle (hd nan fsim) u = true)).

  Lemma dcentroid_length n ps : Forall (fun x => length x = n) ps -> ps <> [] -> length (dcentroid n ps) = n.
  Proof. intros F. unfold dcentroid. destruct ps as [|p ps]; cbn; [intros Q; congruence|intros _]. rewrite map_length. inversion F as [|? ? Lp Fp]; subst.
    assert (G : forall qs q, Forall (fun x => length x = length p) qs -> length q = length p -> length (fold_left dvadd qs q) = length p); [|auto].
    induction qs as [|x qs IH]; intros q Fq Lq; cbn; auto. inversion Fq; subst. apply IH; auto. unfold dvadd. rewrite map2_length; congruence. Qed.
  Lemma dvlen x y a b n : length x = n -> length y = n -> length (dvsub (dvscale a x) (dvscale b y)) = n /\ length (dvadd (dvscale a x) (dvscale b y)) = n.
  Proof. intros. unfold dvsub, dvadd, dvscale. rewrite !map2_length; rewrite !map_length; auto; lia. Qed.

  Lemma dnm_move_spec n sim fsim w sim' fsim' w' : is_dsimplex n sim -> length fsim = S n ->
    Sorted (fun x y => dnle x y = true) fsim ->
    dnm_move func n sim fsim w = Ok (sim', fsim', w') ->
    exists ext, dextends w w' ext /\ (1 <= length ext <= n + 2)%nat /\ dmove_outcome n sim fsim ext sim' fsim'.
  Proof.
    intros (N1 & L & F) Lf S E. unfold dnm_move in E.
    assert (Lc : length (dcentroid n (removelast sim)) = n).
    { apply dcentroid_length; [apply Forall_removelast; auto|]. intros Q. apply (f_equal (@length _)) in Q. rewrite removelast_length, L in Q. cbn in Q. lia. }
    assert (Lw : length (last sim []) = n).
    { apply (Forall_last (fun x => length x = n) sim []); auto. destruct sim; [discriminate|congruence]. }
    assert (Hlast : fsim <> []) by (destruct fsim; [discriminate|congruence]).
    assert (Hmin : forall u, dle (last fsim nan) u = true -> hd nan fsim <> nan -> dle (hd nan fsim) u = true).
    { intros u Hu Hn. eapply dle_trans; [|exact Hu]. apply dnle_dle; [eapply dle_nnan_l; eauto|].
      apply dsorted_hd_min; auto. rewrite (split_last fsim nan) at 2 by auto. apply in_app_iff. right. left. auto. }
    set (xr := dvsub (dvscale dtwo _) _) in E.
    assert (Pr : length xr = n) by (apply dvlen; auto).
    destruct (dcall func w xr) as [[w1 fxr]|e] eqn:Cr; cbn [bind] in E; [|discriminate]. apply dcall_spec in Cr as [Cr _].
    destruct (flt fxr (hd nan fsim)) eqn:B1.
    - set (xe := dvsub (dvscale dthree _) _) in E.
      assert (Pe : length xe = n) by (apply dvlen; auto).
      destruct (dcall func w1 xe) as [[w2 fxe]|e] eqn:Ce; cbn [bind] in E; [|discriminate]. apply dcall_spec in Ce as [Ce _].
      pose proof (dextends_trans _ _ _ _ _ Cr Ce) as X. cbn [app] in X.
      destruct (flt fxe fxr) eqn:B2; injection E as <- <- <-; (eexists; split; [exact X|]; split; [cbn; lia|left]).
      + exists xe, fxe. split; [exact Pe|]. repeat split; auto; [right; left; reflexivity|].
        intros _ _ x u [Q|[Q|[]]] Hu; injection Q as <- <-; left; [apply dlt_le; auto|apply dle_refl; auto].
      + exists xr, fxr. split; [exact Pr|]. repeat split; auto; [left; reflexivity|].
        intros _ _ x u [Q|[Q|[]]] Hu; injection Q as <- <-; left; [apply dle_refl; auto|].
        apply not_dlt; auto. intros ->; destruct (hd nan fsim); discriminate.
    - destruct (flt fxr (last (removelast fsim) nan)) eqn:B2.
      { injection E as <- <- <-. eexists; split; [exact Cr|]; split; [cbn; lia|left].
        exists xr, fxr. split; [exact Pr|]. repeat split; auto; [left; reflexivity|].
        intros _ _ x u [Q|[]] Hu; injection Q as <- <-; left; apply dle_refl; auto. }
      set (R := if flt fxr (last fsim nan) then _ else _) in E.
      assert (HR : forall sim1 fsim1 w2 b, R = Ok (sim1, fsim1, w2, b) ->
        exists y v, dextends w1 w2 [(y, v)] /\
          (if (b : bool) then sim1 = sim /\ fsim1 = fsim /\
             (hd nan fsim <> nan -> last fsim nan <> nan -> v <> nan -> dle (hd nan fsim) v = true)
           else length y = n /\ sim1 = set_last sim y /\ fsim1 = set_last fsim v)).
      { unfold R. intros sim1 fsim1 w2 b E1. destruct (flt fxr (last fsim nan)) eqn:B3.
        - destruct (dcall func w1 _) as [[w3 fxc]|e] eqn:Cc; cbn [bind] in E1; [|discriminate]. apply dcall_spec in Cc as [Cc _].
          destruct (dle fxc fxr) eqn:B4; injection E1 as <- <- <- <-; eexists _, fxc; (split; [exact Cc|]).
          + split; [apply dvlen; auto|]. auto.
          + split; auto. split; auto. intros Hh Hl Hv. assert (fxr <> nan) by (intros ->; destruct (last fsim nan); discriminate).
            apply (dle_trans _ fxr); [apply not_dlt; auto|]. apply not_dle; auto.
        - destruct (dcall func w1 _) as [[w3 fxcc]|e] eqn:Cc; cbn [bind] in E1; [|discriminate]. apply dcall_spec in Cc as [Cc _].
          destruct (flt fxcc (last fsim nan)) eqn:B4; injection E1 as <- <- <- <-; eexists _, fxcc; (split; [exact Cc|]).
          + split; [apply dvlen; auto|]. auto.
          + split; auto. split; auto. intros Hh Hl Hv. apply Hmin; auto. apply not_dlt; auto. }
      destruct R as [[[[sim1 fsim1] w2] b]|e]; cbn [bind] in E; [|discriminate].
      destruct (HR _ _ _ _ eq_refl) as (y & v & X1 & Hb). clear HR.
      pose proof (dextends_trans _ _ _ _ _ Cr X1) as X. cbn [app] in X.
      destruct b.
      + destruct Hb as (-> & -> & Hv).
        destruct (dshrink_loop func (hd [] sim) w2 (tl sim)) as [[[w3 ys] vs]|e] eqn:Cs; cbn [bind] in E; [|discriminate].
        injection E as <- <- <-. apply dshrink_spec in Cs as (Ys & Lv & Xs).
        pose proof (dextends_trans _ _ _ _ _ X Xs) as X2.
        assert (Ly : length ys = n).
        { subst ys. rewrite map_length. destruct sim; cbn in *; lia. }
        assert (Lv' : length vs = n) by (rewrite Lv; destruct sim; cbn in *; lia).
        eexists; split; [exact X2|]; split; [cbn; rewrite combine_length_eq; lia|right].
        exists ys, vs. repeat split; auto; [lia|intros xv Hx; right; right; auto|].
        intros Hh Hl x u [Q|[Q|Q]] Hu; [injection Q as <- <-; right..|left].
        * apply not_dlt; auto.
        * auto.
        * apply in_combine_r in Q. auto.
      + destruct Hb as (Ha & -> & ->). injection E as <- <- <-.
        eexists; split; [exact X|]; split; [cbn; lia|left]. exists y, v.
        repeat split; auto; [right; left; auto|].
        intros Hh Hl x u [Q|[Q|[]]] Hu; injection Q as <- <-; [right; apply not_dlt; auto|left; apply dle_refl; auto].
  Qed.

  Lemma dnm_move_err n sim fsim w e : dnm_move func n sim fsim w = Err e -> exists k x, func k x = Err e.
  Proof. intros E. unfold dnm_move in E.
    destruct (dcall func w _) as [[w1 fxr]|e1] eqn:Cr; cbn [bind] in E; [|injection E as <-; apply dcall_err in Cr; eauto].
    destruct (flt fxr (hd nan fsim)).
    - destruct (dcall func w1 _) as [[w2 fxe]|e1] eqn:Ce; cbn [bind] in E; [|injection E as <-; apply dcall_err in Ce; eauto].
      destruct (flt fxe fxr); discriminate.
    - destruct (flt fxr (last (removelast fsim) nan)); [discriminate|].
      match type of E with bind ?R _ = _ => destruct R as [[[[sim1 fsim1] w2] b]|e1] eqn:ER end; cbn [bind] in E.
      + destruct b; [|discriminate].
        destruct (dshrink_loop func (hd [] sim1) w2 (tl sim1)) as [[[w3 ys] vs]|e1] eqn:Cs; cbn [bind] in E; [discriminate|].
        injection E as <-. eapply dshrink_err; eauto.
      + injection E as <-. destruct (flt fxr (last fsim nan)).
        * destruct (dcall func w1 _) as [[w2 fxe]|e2] eqn:Ce; cbn [bind] in ER; [|injection ER as <-; apply dcall_err in Ce; eauto].
          destruct (dle fxe fxr); discriminate.
        * destruct (dcall func w1 _) as [[w2 fxe]|e2] eqn:Ce; cbn [bind] in ER; [|injection ER as <-; apply dcall_err in Ce; eauto].
          destruct (flt fxe (last fsim nan)); discriminate. Qed.

  (** ** Invariant of the main loop *)

  (** one history entry *)
  Definition dentry_ok (n : nat) (log : list (fpoint * double)) (sim : list fpoint) (fsim : list double) : Prop :=
    is_dsimplex n sim /\ length fsim = S n /\ Sorted (fun x y => dnle x y = true) fsim /\
    (forall xv, In xv (combine sim fsim) -> In xv log).

  Definition dis_min (log : list (fpoint * double)) (v : double) : Prop :=
    dnan_free log -> forall x u, In (x, u) log -> dle v u = true.

  Definition dhist_ok (keep : bool) (n : nat) (s : dstate) : Prop :=
    (exists h, ds_hist s = h ++ [ds_sim s]) /\
    (exists h, ds_fhist s = h ++ [ds_fsim s]) /\
    Forall2 (dentry_ok n (dw_log (ds_world s))) (ds_hist s) (ds_fhist s) /\
    length (ds_hist s) = (if keep then ds_iter s else 1%nat) /\
    Sorted (fun f g => dnle (hd nan g) (hd nan f) = true) (ds_fhist s).

  Definition dnm_inv (keep : bool) (n : nat) (s : dstate) : Prop :=
    dentry_ok n (dw_log (ds_world s)) (ds_sim s) (ds_fsim s) /\
    dw_calls (ds_world s) = length (dw_log (ds_world s)) /\ dfaithful 0 (dw_log (ds_world s)) /\
    dis_min (dw_log (ds_world s)) (hd nan (ds_fsim s)) /\
    (1 <= ds_iter s)%nat /\
    dhist_ok keep n s.

  Lemma dentry_ok_extend n log ext sim fsim : dentry_ok n log sim fsim -> dentry_ok n (log ++ ext) sim fsim.
  Proof. intros (A & B & C & D). repeat split; try apply A; auto. intros xv H. apply in_app_iff. auto. Qed.

  Lemma dvlen_shrink n x0 x : length x0 = n -> length x = n -> length (shrunk x0 x) = n.
  Proof. intros. unfold shrunk, dvadd, dvsub, dvscale. rewrite !map2_length; rewrite ?map_length, ?map2_length; auto; lia. Qed.

  Lemma doutcome_ok n log ext sim fsim sim' fsim' : dentry_ok n log sim fsim ->
    dmove_outcome n sim fsim ext sim' fsim' ->
    is_dsimplex n sim' /\ length fsim' = S n /\
    (forall xv, In xv (combine sim' fsim') -> In xv (log ++ ext)) /\
    In (hd nan fsim) fsim' /\
    (dis_min log (hd nan fsim) -> dnan_free (log ++ ext) -> forall x u, In (x, u) (log ++ ext) -> exists v, In v fsim' /\ dle v u = true).
  Proof. intros ((N1 & L & F) & Lf & S & C) O.
    assert (Hs : sim <> []) by (destruct sim; [discriminate|congruence]).
    assert (Hf : fsim <> []) by (destruct fsim; [discriminate|congruence]).
    assert (NF : dnan_free (log ++ ext) -> hd nan fsim <> nan /\ last fsim nan <> nan).
    { intros NF.
      assert (G : forall v, In v fsim -> v <> nan).
      { intros v Hv. assert (H : exists x, In (x, v) (combine sim fsim)).
        { clear -Hv L Lf. assert (E : length sim = length fsim) by lia. clear L Lf. revert sim E.
          induction fsim as [|a m IH]; intros [|b l] E; cbn in *; try discriminate; [destruct Hv|].
          destruct Hv as [<-|Hv]; [eauto|]. destruct (IH Hv l) as [x Hx]; [lia|]. eauto. }
        destruct H as [x Hx]. unfold dnan_free in NF. rewrite Forall_forall in NF.
        apply (NF (x, v)). apply in_app_iff. auto. }
      split; apply G; [apply hd_in|apply last_in]; auto. }
    assert (NFe : dnan_free (log ++ ext) -> forall x u, In (x, u) ext -> u <> nan).
    { unfold dnan_free. rewrite Forall_forall. intros H x u Hx. apply (H (x, u)). apply in_app_iff. auto. }
    destruct O as [(y0 & v & Ha & -> & -> & Hin & Hmin)|(ys & vs & -> & -> & Hys & Lv & Hin & Hmin)].
    - split.
      { split; auto. split; [rewrite set_last_length; auto|]. unfold set_last. apply Forall_app. split.
        - apply Forall_removelast; auto.
        - constructor; auto. }
      split; [rewrite set_last_length; auto|]. split.
      { intros xv H. rewrite combine_set_last in H by lia. apply in_app_iff in H as [H|[<-|[]]]; apply in_app_iff; auto.
        left. apply C. apply In_removelast; auto. }
      assert (Hh : In (hd nan fsim) (set_last fsim v)).
      { unfold set_last. apply in_app_iff. left. rewrite <- (hd_removelast fsim) by lia. apply hd_in.
        intros E. apply (f_equal (@length _)) in E. rewrite removelast_length in E. cbn in E. lia. }
      split; auto. intros M NN x u Hu. destruct (NF NN) as [NFh NFl]. apply in_app_iff in Hu as [Hu|Hu].
      + exists (hd nan fsim). split; auto. apply (M (proj1 (proj1 (Forall_app _ _ _) NN)) x u Hu).
      + destruct (Hmin NFh NFl x u Hu (NFe NN x u Hu)) as [Q|Q]; [exists v|exists (hd nan fsim)]; split; auto.
        unfold set_last. apply in_app_iff. right. left. auto.
    - split.
      { split; auto. split.
        - cbn. rewrite Hys, map_length. destruct sim; cbn in *; lia.
        - constructor; [rewrite Forall_forall in F; apply F, hd_in; auto|]. rewrite Hys. apply Forall_forall.
          intros y Hy. apply in_map_iff in Hy as (x & <- & Hx). rewrite Forall_forall in F. apply dvlen_shrink; apply F.
          + apply hd_in; auto. + destruct sim; [destruct Hx|right; auto]. }
      split; [cbn; rewrite Lv, Hys, map_length; destruct sim; cbn in *; lia|]. split.
      { intros xv [<-|H]; apply in_app_iff; [left|right; auto]. apply C.
        destruct sim; [congruence|]. destruct fsim; [congruence|]. left. auto. }
      split; [left; auto|]. intros M NN x u Hu. destruct (NF NN) as [NFh NFl]. apply in_app_iff in Hu as [Hu|Hu].
      + exists (hd nan fsim). split; [left; auto|]. apply (M (proj1 (proj1 (Forall_app _ _ _) NN)) x u Hu).
      + destruct (Hmin NFh NFl x u Hu (NFe NN x u Hu)) as [Q|Q].
        * exists u. split; [right; auto|]. apply dle_refl. eapply NFe; eauto.
        * exists (hd nan fsim). split; [left; auto|]; auto. Qed.

  Lemma is_dsimplex_perm n s s' : Permutation s s' -> is_dsimplex n s -> is_dsimplex n s'.
  Proof. intros P (A & B & C). split; auto. split; [rewrite <- (Permutation_length P); auto|].
    rewrite Forall_forall in *. intros x Hx. apply C. eapply Permutation_in; [symmetry; exact P|auto]. Qed.

  (** the state after one iteration *)
  Lemma dinv_step n keep s sim1 fsim1 w1 sim2 fsim2 : dnm_inv keep n s ->
    dnm_move func n (ds_sim s) (ds_fsim s) (ds_world s) = Ok (sim1, fsim1, w1) ->
    dsort_simplex argsort sim1 fsim1 = (sim2, fsim2) ->
    dnm_inv keep n {| ds_sim := sim2; ds_fsim := fsim2; ds_world := w1; ds_iter := S (ds_iter s);
             ds_hist := extend_history keep (ds_hist s) sim2;
             ds_fhist := extend_history keep (ds_fhist s) fsim2 |} /\
    (dw_calls (ds_world s) < dw_calls w1 <= dw_calls (ds_world s) + n + 2)%nat /\
    (exists ext, dw_log w1 = dw_log (ds_world s) ++ ext).
  Proof. intros (E & W & FL & M & I & (h & Hh) & (g & Hg) & H2 & HL & HS) Hm Hs.
    destruct (dnm_move_spec n (ds_sim s) (ds_fsim s) (ds_world s) sim1 fsim1 w1) as (ext & X & Lx & O); auto; try apply E.
    destruct (doutcome_ok _ _ _ _ _ _ _ E O) as (A1 & A2 & A3 & A4 & A5).
    destruct (dsort_spec sim1 fsim1 sim2 fsim2) as (S1 & S2 & S3 & S4 & S5); auto.
    { rewrite A2. apply A1. }
    destruct X as (X1 & X2 & X3).
    assert (E2 : dentry_ok n (dw_log w1) sim2 fsim2).
    { split; [eapply is_dsimplex_perm; [symmetry; exact S1|auto]|]. split; [rewrite (Permutation_length S2); auto|].
      split; auto. intros xv H. rewrite X1. apply A3. eapply Permutation_in; eauto. }
    assert (Hmono : dnle (hd nan fsim2) (hd nan (ds_fsim s)) = true).
    { apply dsorted_hd_min; auto. eapply Permutation_in; [symmetry; exact S2|auto]. }
    split; [|split; [lia|eauto]]. split; [exact E2|]. split; [cbn; rewrite X1, X2, app_length; lia|].
    split; [cbn; rewrite X1; apply dfaithful_app; auto; rewrite Nat.add_0_l, <- W; auto|]. split.
    { cbn. intros NN x u Hu. rewrite X1 in NN, Hu. destruct (A5 M NN x u Hu) as (v & Hv & Hvu).
      eapply dle_trans; [|exact Hvu]. apply dnle_dle; [eapply dle_nnan_l; eauto|].
      apply dsorted_hd_min; auto. eapply Permutation_in; [symmetry; exact S2|auto]. }
    split; [cbn; lia|].
    assert (F2 : Forall2 (dentry_ok n (dw_log w1)) (ds_hist s) (ds_fhist s)).
    { eapply Forall2_impl; [|exact H2]. intros a b Hab. rewrite X1. apply dentry_ok_extend; auto. }
    unfold dhist_ok. cbn [ds_hist ds_fhist ds_sim ds_fsim ds_iter ds_world extend_history]. destruct keep; cbn [extend_history].
    - split; [eauto|]. split; [eauto|]. split; [apply Forall2_app; auto|].
      split; [rewrite app_length; cbn; lia|]. rewrite Hg in *. apply Sorted_snoc; auto.
    - split; [exists []; auto|]. split; [exists []; auto|]. split; [auto|]. split; auto. Qed.

  (** why the loop stopped *)
  Definition dexit_ok (maxfun maxiter : nat) (p : dparams) (s : dstate) : Prop :=
    (maxfun <= dw_calls (ds_world s))%nat \/ (maxiter <= ds_iter s)%nat \/
    dfprime_exceeded (dp_fprime p) (ds_sim s) (hd nan (ds_fsim s)) = Ok true \/
    dconverged p (ds_sim s) (ds_fsim s) = Ok true.

  Lemma dfprime_ok c sim v n : is_dsimplex n sim -> exists b, dfprime_exceeded c sim v = Ok b.
  Proof. intros (N & L & _). unfold dfprime_exceeded. destruct c; [|eauto]. destruct sim as [|x [|y l]]; cbn in *; try lia; eauto. Qed.
  Lemma dconverged_ok p sim fsim n : is_dsimplex n sim -> exists b, dconverged p sim fsim = Ok b.
  Proof. intros (N & L & _). unfold dconverged. destruct sim as [|x [|y l]]; cbn in *; try lia; eauto. Qed.

  Lemma dloop_spec fuel : forall n maxfun maxiter p s s', dnm_inv (dp_keep p) n s ->
    dnm_loop argsort func fuel n maxfun maxiter p s = Ok s' ->
    dnm_inv (dp_keep p) n s' /\ dexit_ok maxfun maxiter p s' /\
    (s' = s \/ (dw_calls (ds_world s) < dw_calls (ds_world s') <= maxfun + n + 1 /\ ds_iter s' <= maxiter)%nat) /\
    (exists ext, dw_log (ds_world s') = dw_log (ds_world s) ++ ext).
  Proof. induction fuel as [|fuel IH]; intros n maxfun maxiter p s s' I E.
    - cbn [dnm_loop] in E. destruct ((_ <? _)%nat && _)%bool eqn:B; [discriminate|]. injection E as <-.
      split; auto. split; [|split; [auto|exists []; rewrite app_nil_r; auto]]. unfold dexit_ok. apply andb_false_iff in B as [B|B]; apply Nat.ltb_ge in B; auto.
    - cbn [dnm_loop] in E. destruct ((_ <? _)%nat && _)%bool eqn:B.
      2:{ injection E as <-. split; auto. split; [|split; [auto|exists []; rewrite app_nil_r; auto]]. unfold dexit_ok. apply andb_false_iff in B as [B|B]; apply Nat.ltb_ge in B; auto. }
      apply andb_true_iff in B as [B1 B2]. apply Nat.ltb_lt in B1, B2.
      destruct (dfprime_exceeded _ _ _) as [b|] eqn:Ef; cbn [bind] in E; [|discriminate].
      destruct b. { injection E as <-. split; auto. split; [|split; [auto|exists []; rewrite app_nil_r; auto]]. unfold dexit_ok. auto. }
      destruct (dconverged p _ _) as [b|] eqn:Ec; cbn [bind] in E; [|discriminate].
      destruct b. { injection E as <-. split; auto. split; [|split; [auto|exists []; rewrite app_nil_r; auto]]. unfold dexit_ok. auto. }
      destruct (dnm_move _ _ _ _ _) as [[[sim1 fsim1] w1]|] eqn:Em; cbn [bind] in E; [|discriminate].
      destruct (dsort_simplex argsort sim1 fsim1) as [sim2 fsim2] eqn:Es.
      destruct (dinv_step n (dp_keep p) s sim1 fsim1 w1 sim2 fsim2 I Em Es) as (I2 & W & x1 & X1).
      destruct (IH _ _ _ _ _ _ I2 E) as (A & C & D & x2 & X2). split; auto. split; auto. split.
      + right. destruct D as [->|D]; cbn in *; lia.
      + exists (x1 ++ x2). cbn in X2. rewrite X2, X1, app_assoc. auto. Qed.

  Lemma dloop_err fuel : forall n maxfun maxiter p s e, dnm_inv (dp_keep p) n s ->
    (maxiter <= ds_iter s + fuel)%nat ->
    dnm_loop argsort func fuel n maxfun maxiter p s = Err e -> exists k x, func k x = Err e.
  Proof. induction fuel as [|fuel IH]; intros n maxfun maxiter p s e I Hf E.
    - cbn [dnm_loop] in E. destruct ((_ <? _)%nat && _)%bool eqn:B; [|discriminate].
      apply andb_true_iff in B as [B1 B2]. apply Nat.ltb_lt in B1, B2. lia.
    - cbn [dnm_loop] in E. destruct ((_ <? _)%nat && _)%bool eqn:B; [|discriminate].
      destruct (dfprime_ok (dp_fprime p) (ds_sim s) (hd nan (ds_fsim s)) n) as [b Eb]; [apply I|]. rewrite Eb in E. cbn [bind] in E.
      destruct b; [discriminate|].
      destruct (dconverged_ok p (ds_sim s) (ds_fsim s) n) as [b Ec]; [apply I|]. rewrite Ec in E. cbn [bind] in E.
      destruct b; [discriminate|].
      destruct (dnm_move _ _ _ _ _) as [[[sim1 fsim1] w1]|e1] eqn:Em; cbn [bind] in E.
      + destruct (dsort_simplex argsort sim1 fsim1) as [sim2 fsim2] eqn:Es.
        destruct (dinv_step n (dp_keep p) s sim1 fsim1 w1 sim2 fsim2 I Em Es) as (I2 & W & _).
        eapply IH; [exact I2| |exact E]. cbn. lia.
      + injection E as <-. eapply dnm_move_err; eauto. Qed.

  (** the initial state of the loop *)
  Lemma dinit_inv n initial w f0 sim fsim keep : is_dsimplex n initial ->
    dcall_all func {| dw_calls := 0; dw_log := [] |} initial = Ok (w, f0) -> dsort_simplex argsort initial f0 = (sim, fsim) ->
    dnm_inv keep n {| ds_sim := sim; ds_fsim := fsim; ds_world := w; ds_iter := 1; ds_hist := [sim]; ds_fhist := [fsim] |} /\
    dw_calls w = S n /\ dw_log w = combine initial f0 /\ length f0 = length initial.
  Proof. intros Hi C Hs. apply dcall_all_spec in C as (L & X1 & X2 & X3). cbn in X1, X2, X3.
    destruct (dsort_spec _ _ _ _ (eq_sym L) Hs) as (S1 & S2 & S3 & S4 & S5).
    assert (Ln : length initial = S n) by apply Hi.
    assert (W : dw_calls w = S n) by (rewrite X2, combine_length_eq; lia).
    assert (E : dentry_ok n (dw_log w) sim fsim).
    { split; [eapply is_dsimplex_perm; [symmetry; exact S1|auto]|]. split; [rewrite (Permutation_length S2); lia|].
      split; auto. intros xv H. rewrite X1. eapply Permutation_in; eauto. }
    split; [|auto]. split; [exact E|]. split; [cbn; rewrite X1, X2; auto|]. split; [cbn; rewrite X1; auto|]. split.
    { cbn. intros NN x u Hu. unfold dnan_free in NN. rewrite Forall_forall in NN.
      apply dnle_dle; [apply (NN (x, u)); auto|]. apply dsorted_hd_min; auto.
      eapply Permutation_in; [symmetry; exact S2|]. rewrite X1 in Hu. apply in_combine_r in Hu. auto. }
    split; [cbn; lia|]. unfold dhist_ok. cbn.
    split; [exists []; auto|]. split; [exists []; auto|]. split; [constructor; auto|]. split; [destruct keep; auto|].
    repeat constructor. Qed.

  Lemma dwell_shaped_spec n s : (1 <= n)%nat -> (dwell_shaped n s = true <-> is_dsimplex n s).
  Proof. intros N. unfold dwell_shaped, is_dsimplex. rewrite andb_true_iff, Nat.eqb_eq, forallb_forall, Forall_forall.
    split.
    - intros [A B]. repeat split; auto. intros x Hx. apply Nat.eqb_eq; auto.
    - intros (_ & A & B). split; auto. intros x Hx. apply Nat.eqb_eq; auto. Qed.

  Lemma droot_spec n p initial r w : is_dsimplex n initial ->
    droot_nelder_mead argsort np_dmin func p initial = Ok (r, w) ->
    exists s, dnm_inv (dp_keep p) n s /\ dexit_ok (limit (dp_maxfev p) n) (limit (dp_maxiter p) n) p s /\
      ds_world s = w /\ (S n <= dw_calls w <= limit (dp_maxfev p) n + n + 1)%nat /\ (ds_iter s <= Nat.max 1 (limit (dp_maxiter p) n))%nat /\
      dnm_status p (limit (dp_maxfev p) n) (limit (dp_maxiter p) n) s (np_dmin (ds_fsim s)) = Ok (dr_status r) /\
      r = {| dr_pos := hd [] (ds_sim s); dr_value := np_dmin (ds_fsim s); dr_success := (dr_status r =? 0)%Z;
             dr_status := dr_status r; dr_num_fev := dw_calls w; dr_num_iter := ds_iter s;
             dr_simplex_history := ds_hist s;
             dr_fun_history := if dp_keep p then Some (ds_fhist s) else None |} /\
      (exists f0 ext, dw_log w = combine initial f0 ++ ext /\ length f0 = length initial).
  Proof. intros Hi E. unfold droot_nelder_mead in E.
    destruct initial as [|x0 xs] eqn:Ein; [discriminate|]. rewrite <- Ein in *.
    assert (L0 : length x0 = n). { destruct Hi as (_ & _ & F). rewrite Ein in F. inversion F; auto. }
    rewrite L0 in E. rewrite (proj2 (dwell_shaped_spec n initial (proj1 Hi)) Hi) in E. cbn [negb] in E.
    destruct (dcall_all func _ initial) as [[w0 f0]|] eqn:C; cbn [bind] in E; [|discriminate].
    destruct (dsort_simplex argsort initial f0) as [sim fsim] eqn:Es.
    destruct (dinit_inv n initial w0 f0 sim fsim (dp_keep p) Hi C Es) as (I & W & LW & LF).
    destruct (dnm_loop _ _ _ _ _ _ _ _) as [s|] eqn:El; cbn [bind] in E; [|discriminate].
    destruct (dloop_spec _ _ _ _ _ _ _ I El) as (I2 & X & D & ext & LX).
    destruct (dnm_status _ _ _ _ _) as [st|] eqn:St; cbn [bind] in E; [|discriminate].
    injection E as <- <-. exists s. cbn [dr_status]. split; [exact I2|]. split; [exact X|]. split; [auto|].
    split; [destruct D as [->|D]; cbn in *; lia|]. split; [destruct D as [->|D]; cbn [ds_iter]; lia|].
    split; [auto|]. split; [auto|]. exists f0, ext. cbn in LX. rewrite LX, LW. auto. Qed.

  Lemma droot_err n p initial e : is_dsimplex n initial ->
    droot_nelder_mead argsort np_dmin func p initial = Err e -> exists k x, func k x = Err e.
  Proof. intros Hi E. unfold droot_nelder_mead in E.
    destruct initial as [|x0 xs] eqn:Ein; [destruct Hi as (_ & Hi & _); discriminate|]. rewrite <- Ein in *.
    assert (L0 : length x0 = n). { destruct Hi as (_ & _ & F). rewrite Ein in F. inversion F; auto. }
    rewrite L0 in E. rewrite (proj2 (dwell_shaped_spec n initial (proj1 Hi)) Hi) in E. cbn [negb] in E.
    destruct (dcall_all func _ initial) as [[w0 f0]|e1] eqn:C; cbn [bind] in E; [|injection E as <-; eapply dcall_all_err; eauto].
    destruct (dsort_simplex argsort initial f0) as [sim fsim] eqn:Es.
    destruct (dinit_inv n initial w0 f0 sim fsim (dp_keep p) Hi C Es) as (I & W & LW & LF).
    destruct (dnm_loop _ _ _ _ _ _ _ _) as [s|e1] eqn:El; cbn [bind] in E.
    - destruct (dloop_spec _ _ _ _ _ _ _ I El) as (I2 & X & D & _). unfold dnm_status in E.
      destruct (_ <=? _)%nat; [discriminate|]. destruct (_ <=? _)%nat; [discriminate|].
      destruct (dfprime_ok (dp_fprime p) (ds_sim s) (np_dmin (ds_fsim s)) n) as [b Eb]; [apply I2|]. rewrite Eb in E. cbn [bind] in E.
      destruct b; discriminate.
    - injection E as <-. eapply dloop_err; [exact I| |exact El]. cbn. lia. Qed.
End NM.
