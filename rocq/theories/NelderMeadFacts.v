(** Facts about the model of the Nelder-Mead minimization. *)
From Verif Require Import Base BaseFacts CoordSys Values NelderMead SpecMin QueueFacts AverageFacts.
Open Scope Qc_scope.

(** ** Order on values *)
Ltac fv := repeat match goal with x : fval |- _ => destruct x end; cbn in *; try discriminate; try congruence; auto.
Lemma fle_refl x : x <> NaN -> fle x x = true.
Proof. intros. fv. apply leb_spec. qlra. Qed.
Lemma flt_le x y : flt x y = true -> fle x y = true.
Proof. intros. fv. rewrite ltb_spec in *. rewrite leb_spec. qlra. Qed.
Lemma not_flt x y : x <> NaN -> y <> NaN -> flt x y = false -> fle y x = true.
Proof. intros. fv. rewrite ltb_false in *. rewrite leb_spec. qlra. Qed.
Lemma not_fle x y : x <> NaN -> y <> NaN -> fle x y = false -> fle y x = true.
Proof. intros. fv. rewrite leb_false in *. rewrite leb_spec. qlra. Qed.
Lemma fle_trans x y z : fle x y = true -> fle y z = true -> fle x z = true.
Proof. intros. fv. rewrite leb_spec in *. qlra. Qed.
Lemma nle_refl x : nle x x = true.
Proof. fv. apply leb_spec. qlra. Qed.
Lemma nle_trans x y z : nle x y = true -> nle y z = true -> nle x z = true.
Proof. intros. fv. rewrite leb_spec in *. qlra. Qed.
Lemma nle_total x y : nle x y = true \/ nle y x = true.
Proof. fv. rewrite !leb_spec. match goal with |- (?a <= ?b) \/ _ => destruct (Qclt_le_dec a b) end; [left|right]; qlra. Qed.
Lemma nle_fle x y : y <> NaN -> nle x y = true -> fle x y = true.
Proof. intros. fv. Qed.
Lemma fle_nle x y : fle x y = true -> nle x y = true.
Proof. intros. fv. Qed.
Lemma flt_nle x y : flt x y = true -> nle x y = true.
Proof. intros. apply fle_nle, flt_le; auto. Qed.
Lemma fle_nnan_l x y : fle x y = true -> x <> NaN.
Proof. intros. destruct x; cbn in *; congruence. Qed.

(** ** Lists *)
Lemma combine_app {A B} (l1 l2 : list A) (m1 m2 : list B) : length l1 = length m1 ->
  combine (l1 ++ l2) (m1 ++ m2) = combine l1 m1 ++ combine l2 m2.
Proof. revert m1. induction l1 as [|a l1 IH]; intros [|b m1] H; cbn in *; try discriminate; auto.
  rewrite IH; auto. Qed.
Lemma removelast_length {A} (l : list A) : length (removelast l) = pred (length l).
Proof. induction l as [|a [|b l] IH]; cbn in *; auto. Qed.
Lemma split_last {A} (l : list A) d : l <> [] -> l = removelast l ++ [last l d].
Proof. apply app_removelast_last. Qed.
Lemma combine_length_eq {A B} (l : list A) (m : list B) : length l = length m -> length (combine l m) = length l.
Proof. intros. rewrite combine_length. lia. Qed.
Lemma nth_combine {A B} (l : list A) (m : list B) i a b : length l = length m ->
  nth i (combine l m) (a, b) = (nth i l a, nth i m b).
Proof. intros. apply combine_nth; auto. Qed.
Lemma Forall_removelast {A} (P : A -> Prop) l : Forall P l -> Forall P (removelast l).
Proof. intros H. destruct l as [|a l]; [constructor|]. rewrite (@split_last _ (a :: l) a) in H by discriminate.
  apply Forall_app in H as [H _]. auto. Qed.
Lemma Forall_last {A} (P : A -> Prop) l d : Forall P l -> l <> [] -> P (last l d).
Proof. intros H N. rewrite (@split_last _ l d) in H by auto. apply Forall_app in H as [_ H]. inversion H; auto. Qed.
Lemma In_removelast {A} (x : A) l : In x (removelast l) -> In x l.
Proof. destruct l as [|a l]; [auto|]. intros H. rewrite (@split_last _ (a :: l) a) by discriminate.
  apply in_app_iff. auto. Qed.
Lemma hd_removelast {A} (l : list A) d : (2 <= length l)%nat -> hd d (removelast l) = hd d l.
Proof. destruct l as [|a [|b l]]; cbn; intros; try lia; auto. Qed.

(** ** Permutations of parallel lists *)
Lemma take_combine {A B} (l : list A) (m : list B) da db ind : length l = length m ->
  combine (take da l ind) (take db m ind) = map (fun i => nth i (combine l m) (da, db)) ind.
Proof. intros H. unfold take. induction ind as [|i ind IH]; cbn; auto. rewrite IH, nth_combine; auto. Qed.
Lemma map_nth_seq {A} (l : list A) d : map (fun i => nth i l d) (seq 0 (length l)) = l.
Proof. induction l as [|a l IH]; cbn; auto. f_equal. rewrite <- seq_shift, map_map. auto. Qed.
Lemma take_perm {A} (l : list A) d ind : Permutation ind (seq 0 (length l)) -> Permutation (take d l ind) l.
Proof. intros H. unfold take. eapply Permutation_trans; [apply Permutation_map; exact H|]. rewrite map_nth_seq. reflexivity. Qed.

Section NM.
  Variable argsort : list fval -> list nat.
  Hypothesis Hsort : argsort_ok argsort.

  Lemma sort_spec sim fsim sim' fsim' : length sim = length fsim -> sort_simplex argsort sim fsim = (sim', fsim') ->
    Permutation sim' sim /\ Permutation fsim' fsim /\ Permutation (combine sim' fsim') (combine sim fsim) /\
    length sim' = length fsim' /\ Sorted (fun x y => nle x y = true) fsim'.
  Proof. intros L E. unfold sort_simplex in E. injection E as <- <-. destruct (Hsort fsim) as [P S].
    split; [apply take_perm; rewrite L; auto|]. split; [apply take_perm; auto|].
    split; [|split; [unfold take; rewrite !map_length; auto|exact S]].
    rewrite take_combine by auto.
    apply (take_perm (combine sim fsim) ([], NaN)). rewrite combine_length, L, Nat.min_id. auto. Qed.

  Lemma sorted_hd_min fsim x : Sorted (fun x y => nle x y = true) fsim -> In x fsim -> nle (hd NaN fsim) x = true.
  Proof. intros S H. apply Sorted_StronglySorted in S; [|intros a b c; apply nle_trans].
    destruct fsim as [|a l]; [destruct H|]. cbn. destruct H as [<-|H]; [apply nle_refl|].
    inversion S as [|? ? ? F]; subst. rewrite Forall_forall in F. auto. Qed.

  Variable func : nat -> point -> res fval.

  (** every logged evaluation is the oracle's answer to that call *)
  Definition faithful (start : nat) (log : list (point * fval)) : Prop :=
    forall i x v, nth_error log i = Some (x, v) -> func (start + i)%nat x = Ok v.
  Lemma faithful_app k l l' : faithful k l -> faithful (k + length l) l' -> faithful k (l ++ l').
  Proof. intros A B i x v E. destruct (Nat.lt_ge_cases i (length l)) as [L|L].
    - rewrite nth_error_app1 in E by auto. auto.
    - rewrite nth_error_app2 in E by auto. apply B in E. rewrite <- E. f_equal. lia. Qed.

  (** evaluations only append to the log; the counter is the length of the log *)
  Definition extends (w w' : world) (ext : list (point * fval)) : Prop :=
    w_log w' = w_log w ++ ext /\ w_calls w' = (w_calls w + length ext)%nat /\ faithful (w_calls w) ext.
  Lemma extends_refl w : extends w w [].
  Proof. split; [rewrite app_nil_r; auto|]. split; [cbn; lia|]. intros [|i] x v; discriminate. Qed.
  Lemma extends_trans w w' w'' e e' : extends w w' e -> extends w' w'' e' -> extends w w'' (e ++ e').
  Proof. intros (A & B & F) (C & D & F'). split; [rewrite C, A, app_assoc; auto|].
    split; [rewrite D, B, app_length; lia|]. apply faithful_app; auto. rewrite <- B. auto. Qed.

  Lemma call_spec w x w' v : call func w x = Ok (w', v) -> extends w w' [(x, v)] /\ func (w_calls w) x = Ok v.
  Proof. unfold call. destruct (func (w_calls w) x) as [u|e] eqn:F; cbn; [|discriminate]. intros E. injection E as <- <-.
    split; auto. split; cbn; auto. split; [lia|]. intros [|[|i]] y u' E; cbn in E; try discriminate.
    injection E as <- <-. rewrite Nat.add_0_r. auto. Qed.
  Lemma call_err w x e : call func w x = Err e -> func (w_calls w) x = Err e.
  Proof. unfold call. destruct (func (w_calls w) x) as [u|e']; cbn; congruence. Qed.

  Lemma call_all_spec xs : forall w w' vs, call_all func w xs = Ok (w', vs) ->
    length vs = length xs /\ extends w w' (combine xs vs).
  Proof. induction xs as [|x xs IH]; cbn; intros w w' vs E.
    - injection E as <- <-. split; auto. apply extends_refl.
    - destruct (call func w x) as [[w1 v]|e] eqn:C; cbn in E; [|discriminate]. apply call_spec in C as [C _].
      destruct (call_all func w1 xs) as [[w2 us]|e] eqn:C2; cbn in E; [|discriminate]. injection E as <- <-.
      apply IH in C2 as [L X]. split; [cbn; auto|]. apply (extends_trans _ _ _ _ _ C X). Qed.
  Lemma call_all_err xs : forall w e, call_all func w xs = Err e -> exists k x, func k x = Err e.
  Proof. induction xs as [|x xs IH]; cbn; intros w e E; [discriminate|].
    destruct (call func w x) as [[w1 v]|e1] eqn:C; cbn in E.
    - destruct (call_all func w1 xs) as [[w2 us]|e2] eqn:C2; cbn in E; [discriminate|]. injection E as <-. eauto.
    - injection E as <-. apply call_err in C. eauto. Qed.

  Lemma shrink_spec x0 xs : forall w w' ys vs, shrink_loop func x0 w xs = Ok (w', ys, vs) ->
    ys = map (fun x => vadd x0 (vscale sigma (vsub x x0))) xs /\ length vs = length xs /\ extends w w' (combine ys vs).
  Proof. induction xs as [|x xs IH]; cbn; intros w w' ys vs E.
    - injection E as <- <- <-. split; auto. split; auto. apply extends_refl.
    - destruct (call func w _) as [[w1 v]|e] eqn:C; cbn in E; [|discriminate]. apply call_spec in C as [C _].
      destruct (shrink_loop func x0 w1 xs) as [[[w2 ys'] us]|e] eqn:C2; cbn in E; [|discriminate]. injection E as <- <- <-.
      apply IH in C2 as (-> & L & X). split; [auto|]. split; [cbn; auto|]. apply (extends_trans _ _ _ _ _ C X). Qed.
  Lemma shrink_err x0 xs : forall w e, shrink_loop func x0 w xs = Err e -> exists k x, func k x = Err e.
  Proof. induction xs as [|x xs IH]; cbn; intros w e E; [discriminate|].
    destruct (call func w _) as [[w1 v]|e1] eqn:C; cbn in E.
    - destruct (shrink_loop func x0 w1 xs) as [[[w2 ys'] us]|e2] eqn:C2; cbn in E; [discriminate|]. injection E as <-. eauto.
    - injection E as <-. apply call_err in C. eauto. Qed.

  (** the points a move may propose: [(1 + a) xbar - a worst], [a <> 0, -1] not needed *)
  Definition proposal (n : nat) (sim : list point) (a : Qc) : point :=
    vsub (vscale (1 + a) (centroid n (removelast sim))) (vscale a (last sim [])).

  Lemma vadd_vsub_scale a x y : length x = length y -> vadd (vscale (1 - a) x) (vscale a y) = vsub (vscale (1 + - a) x) (vscale (- a) y).
  Proof. revert y. unfold vadd, vsub, vscale. induction x as [|u x IH]; intros [|v y] H; cbn in *; try discriminate; auto.
    f_equal; [ring|]. apply IH; auto. Qed.

  (** outcome of one move, before sorting *)
  Definition move_outcome (n : nat) (sim : list point) (fsim : list fval) (ext : list (point * fval))
      (sim' : list point) (fsim' : list fval) : Prop :=
    (exists a v, a <> 0 /\ sim' = set_last sim (proposal n sim a) /\ fsim' = set_last fsim v /\
       In (proposal n sim a, v) ext /\
       (hd NaN fsim <> NaN -> last fsim NaN <> NaN ->
        forall x u, In (x, u) ext -> u <> NaN -> fle v u = true \/ fle (hd NaN fsim) u = true)) \/
    (exists ys vs, sim' = hd [] sim :: ys /\ fsim' = hd NaN fsim :: vs /\
       ys = map (fun x => vadd (hd [] sim) (vscale sigma (vsub x (hd [] sim)))) (tl sim) /\
       length vs = length ys /\
       (forall xv, In xv (combine ys vs) -> In xv ext) /\
       (hd NaN fsim <> NaN -> last fsim NaN <> NaN ->
        forall x u, In (x, u) ext -> u <> NaN -> In u vs \/ fle (hd NaN fsim) u = true)).

  Lemma centroid_length n ps : Forall (fun x => length x = n) ps -> length (centroid n ps) = n.
  Proof. intros. unfold centroid. rewrite map_length. apply vsum_length; auto. Qed.

  Lemma nm_move_spec n sim fsim w sim' fsim' w' : is_simplex n sim -> length fsim = S n ->
    Sorted (fun x y => nle x y = true) fsim ->
    nm_move func n sim fsim w = Ok (sim', fsim', w') ->
    exists ext, extends w w' ext /\ (1 <= length ext <= n + 2)%nat /\ move_outcome n sim fsim ext sim' fsim'.
  Proof.
    intros (N1 & L & F) Lf S E. unfold nm_move in E.
    assert (Lc : length (centroid n (removelast sim)) = length (last sim [])).
    { rewrite centroid_length by (apply Forall_removelast; auto). symmetry.
      apply (Forall_last (fun x => length x = n) sim []); auto. destruct sim; [discriminate|congruence]. }
    assert (Hlast : fsim <> []) by (destruct fsim; [discriminate|congruence]).
    assert (Hmin : forall u, fle (last fsim NaN) u = true -> hd NaN fsim <> NaN -> fle (hd NaN fsim) u = true).
    { intros u Hu Hn. eapply fle_trans; [|exact Hu]. apply nle_fle; [eapply fle_nnan_l; eauto|].
      apply sorted_hd_min; auto. rewrite (split_last fsim NaN) at 2 by auto. apply in_app_iff. right. left. auto. }
    set (xr := vsub (vscale (1 + rho) _) _) in E.
    assert (Pr : xr = proposal n sim rho) by reflexivity.
    destruct (call func w xr) as [[w1 fxr]|e] eqn:Cr; cbn [bind] in E; [|discriminate]. apply call_spec in Cr as [Cr _].
    destruct (flt fxr (hd NaN fsim)) eqn:B1.
    - set (xe := vsub (vscale (1 + rho * chi) _) _) in E.
      destruct (call func w1 xe) as [[w2 fxe]|e] eqn:Ce; cbn [bind] in E; [|discriminate]. apply call_spec in Ce as [Ce _].
      pose proof (extends_trans _ _ _ _ _ Cr Ce) as X. cbn [app] in X.
      destruct (flt fxe fxr) eqn:B2; injection E as <- <- <-; (eexists; split; [exact X|]; split; [cbn; lia|left]).
      + exists (rho * chi), fxe. split; [discriminate|]. repeat split; auto; [right; left; reflexivity|].
        intros _ _ x u [Q|[Q|[]]] Hu; injection Q as <- <-; left; [apply flt_le; auto|apply fle_refl; auto].
      + exists rho, fxr. split; [discriminate|]. repeat split; auto; [left; reflexivity|].
        intros _ _ x u [Q|[Q|[]]] Hu; injection Q as <- <-; left; [apply fle_refl; auto|].
        apply not_flt; auto. intros ->; destruct (hd NaN fsim); discriminate.
    - destruct (flt fxr (last (removelast fsim) NaN)) eqn:B2.
      { injection E as <- <- <-. eexists; split; [exact Cr|]; split; [cbn; lia|left].
        exists rho, fxr. split; [discriminate|]. repeat split; auto; [left; reflexivity|].
        intros _ _ x u [Q|[]] Hu; injection Q as <- <-; left; apply fle_refl; auto. }
      set (R := if flt fxr (last fsim NaN) then _ else _) in E.
      assert (HR : forall sim1 fsim1 w2 b, R = Ok (sim1, fsim1, w2, b) ->
        exists y v, extends w1 w2 [(y, v)] /\
          (if (b : bool) then sim1 = sim /\ fsim1 = fsim /\
             (hd NaN fsim <> NaN -> last fsim NaN <> NaN -> v <> NaN -> fle (hd NaN fsim) v = true)
           else exists a, a <> 0 /\ y = proposal n sim a /\ sim1 = set_last sim y /\ fsim1 = set_last fsim v)).
      { unfold R. intros sim1 fsim1 w2 b E1. destruct (flt fxr (last fsim NaN)) eqn:B3.
        - destruct (call func w1 _) as [[w3 fxc]|e] eqn:Cc; cbn [bind] in E1; [|discriminate]. apply call_spec in Cc as [Cc _].
          destruct (fle fxc fxr) eqn:B4; injection E1 as <- <- <- <-; eexists _, fxc; (split; [exact Cc|]).
          + exists (psi * rho). split; [discriminate|]. split; [reflexivity|]. auto.
          + split; auto. split; auto. intros Hh Hl Hv. assert (fxr <> NaN) by (intros ->; destruct (last fsim NaN); discriminate).
            apply (fle_trans _ fxr); [apply not_flt; auto|]. apply not_fle; auto.
        - destruct (call func w1 _) as [[w3 fxcc]|e] eqn:Cc; cbn [bind] in E1; [|discriminate]. apply call_spec in Cc as [Cc _].
          destruct (flt fxcc (last fsim NaN)) eqn:B4; injection E1 as <- <- <- <-; eexists _, fxcc; (split; [exact Cc|]).
          + exists (- psi). split; [discriminate|]. split; [|auto]. unfold proposal. apply vadd_vsub_scale. auto.
          + split; auto. split; auto. intros Hh Hl Hv. apply Hmin; auto. apply not_flt; auto. }
      destruct R as [[[[sim1 fsim1] w2] b]|e]; cbn [bind] in E; [|discriminate].
      destruct (HR _ _ _ _ eq_refl) as (y & v & X1 & Hb). clear HR.
      pose proof (extends_trans _ _ _ _ _ Cr X1) as X. cbn [app] in X.
      destruct b.
      + destruct Hb as (-> & -> & Hv).
        destruct (shrink_loop func (hd [] sim) w2 (tl sim)) as [[[w3 ys] vs]|e] eqn:Cs; cbn [bind] in E; [|discriminate].
        injection E as <- <- <-. apply shrink_spec in Cs as (Ys & Lv & Xs).
        pose proof (extends_trans _ _ _ _ _ X Xs) as X2.
        assert (Ly : length ys = n).
        { subst ys. rewrite map_length. destruct sim; cbn in *; lia. }
        assert (Lv' : length vs = n) by (rewrite Lv; destruct sim; cbn in *; lia).
        eexists; split; [exact X2|]; split; [cbn; rewrite combine_length_eq; lia|right].
        exists ys, vs. repeat split; auto; [lia|intros xv Hx; right; right; auto|].
        intros Hh Hl x u [Q|[Q|Q]] Hu; [injection Q as <- <-; right..|left].
        * apply not_flt; auto.
        * auto.
        * apply in_combine_r in Q. auto.
      + destruct Hb as (a & Ha & -> & -> & ->). injection E as <- <- <-.
        eexists; split; [exact X|]; split; [cbn; lia|left]. exists a, v.
        repeat split; auto; [right; left; auto|].
        intros Hh Hl x u [Q|[Q|[]]] Hu; injection Q as <- <-; [right; apply not_flt; auto|left; apply fle_refl; auto].
  Qed.

  Lemma nm_move_err n sim fsim w e : nm_move func n sim fsim w = Err e -> exists k x, func k x = Err e.
  Proof. intros E. unfold nm_move in E.
    destruct (call func w _) as [[w1 fxr]|e1] eqn:Cr; cbn [bind] in E; [|injection E as <-; apply call_err in Cr; eauto].
    destruct (flt fxr (hd NaN fsim)).
    - destruct (call func w1 _) as [[w2 fxe]|e1] eqn:Ce; cbn [bind] in E; [|injection E as <-; apply call_err in Ce; eauto].
      destruct (flt fxe fxr); discriminate.
    - destruct (flt fxr (last (removelast fsim) NaN)); [discriminate|].
      match type of E with bind ?R _ = _ => destruct R as [[[[sim1 fsim1] w2] b]|e1] eqn:ER end; cbn [bind] in E.
      + destruct b; [|discriminate].
        destruct (shrink_loop func (hd [] sim1) w2 (tl sim1)) as [[[w3 ys] vs]|e1] eqn:Cs; cbn [bind] in E; [discriminate|].
        injection E as <-. eapply shrink_err; eauto.
      + injection E as <-. destruct (flt fxr (last fsim NaN)).
        * destruct (call func w1 _) as [[w2 fxe]|e2] eqn:Ce; cbn [bind] in ER; [|injection ER as <-; apply call_err in Ce; eauto].
          destruct (fle fxe fxr); discriminate.
        * destruct (call func w1 _) as [[w2 fxe]|e2] eqn:Ce; cbn [bind] in ER; [|injection ER as <-; apply call_err in Ce; eauto].
          destruct (flt fxe (last fsim NaN)); discriminate. Qed.

  (** ** Invariant of the main loop *)

  (** one history entry *)
  Definition entry_ok (n : nat) (log : list (point * fval)) (sim : list point) (fsim : list fval) : Prop :=
    is_simplex n sim /\ length fsim = S n /\ Sorted (fun x y => nle x y = true) fsim /\
    (forall xv, In xv (combine sim fsim) -> In xv log).

  Definition is_min (log : list (point * fval)) (v : fval) : Prop :=
    nan_free log -> forall x u, In (x, u) log -> fle v u = true.

  (** a predicate on simplices that moves and reordering preserve *)
  Definition preserved (n : nat) (P : list point -> Prop) : Prop :=
    (forall s s', Permutation s s' -> P s -> P s') /\
    (forall s a, is_simplex n s -> a <> 0 -> P s -> P (set_last s (proposal n s a))) /\
    (forall s, is_simplex n s -> P s ->
       P (hd [] s :: map (fun x => vadd (hd [] s) (vscale sigma (vsub x (hd [] s)))) (tl s))).

  Definition hist_ok (keep : bool) (n : nat) (P : list point -> Prop) (s : nm_state) : Prop :=
    Forall P (s_hist s) /\
    (exists h, s_hist s = h ++ [s_sim s]) /\
    (exists h, s_fhist s = h ++ [s_fsim s]) /\
    Forall2 (entry_ok n (w_log (s_world s))) (s_hist s) (s_fhist s) /\
    length (s_hist s) = (if keep then s_iter s else 1%nat) /\
    Sorted (fun f g => nle (hd NaN g) (hd NaN f) = true) (s_fhist s).

  Definition nm_inv (keep : bool) (n : nat) (P : list point -> Prop) (s : nm_state) : Prop :=
    entry_ok n (w_log (s_world s)) (s_sim s) (s_fsim s) /\
    w_calls (s_world s) = length (w_log (s_world s)) /\ faithful 0 (w_log (s_world s)) /\
    is_min (w_log (s_world s)) (hd NaN (s_fsim s)) /\
    (1 <= s_iter s)%nat /\
    hist_ok keep n P s.

  Lemma entry_ok_extend n log ext sim fsim : entry_ok n log sim fsim -> entry_ok n (log ++ ext) sim fsim.
  Proof. intros (A & B & C & D). repeat split; try apply A; auto. intros xv H. apply in_app_iff. auto. Qed.

  Lemma set_last_length {A} (l : list A) x : l <> [] -> length (set_last l x) = length l.
  Proof. intros H. unfold set_last. rewrite app_length, removelast_length. destruct l; [congruence|cbn; lia]. Qed.
  Lemma combine_set_last {A B} (l : list A) (m : list B) x y : length l = length m ->
    combine (set_last l x) (set_last m y) = removelast (combine l m) ++ [(x, y)].
  Proof. intros H. unfold set_last. rewrite combine_app by (rewrite !removelast_length; auto). f_equal. clear x y.
    revert m H. induction l as [|a [|b l] IH]; intros [|c [|d m]] H; cbn in *; try discriminate; auto.
    f_equal. apply (IH (d :: m)). cbn; auto. Qed.
  Lemma proposal_length n sim a : is_simplex n sim -> length (proposal n sim a) = n.
  Proof. intros (N1 & L & F). unfold proposal, vsub, vscale. rewrite map2_length; rewrite !map_length.
    - apply centroid_length, Forall_removelast; auto.
    - rewrite centroid_length by (apply Forall_removelast; auto). symmetry.
      apply (Forall_last (fun x => length x = n)); auto. destruct sim; [discriminate|congruence]. Qed.

  Lemma vlen_shrink n x0 x : length x0 = n -> length x = n -> length (vadd x0 (vscale sigma (vsub x x0))) = n.
  Proof. intros. unfold vadd, vsub, vscale. rewrite !map2_length; rewrite ?map_length, ?map2_length; auto; lia. Qed.

  Lemma hd_in {A} (l : list A) d : l <> [] -> In (hd d l) l.
  Proof. destruct l; [congruence|left; auto]. Qed.
  Lemma last_in {A} (l : list A) d : l <> [] -> In (last l d) l.
  Proof. intros H. rewrite (@split_last _ l d) at 2 by auto. apply in_app_iff. right. left. auto. Qed.

  Lemma outcome_ok n log ext sim fsim sim' fsim' : entry_ok n log sim fsim ->
    move_outcome n sim fsim ext sim' fsim' ->
    is_simplex n sim' /\ length fsim' = S n /\
    (forall xv, In xv (combine sim' fsim') -> In xv (log ++ ext)) /\
    In (hd NaN fsim) fsim' /\
    (is_min log (hd NaN fsim) -> nan_free (log ++ ext) -> forall x u, In (x, u) (log ++ ext) -> exists v, In v fsim' /\ fle v u = true).
  Proof. intros ((N1 & L & F) & Lf & S & C) O.
    assert (Hs : sim <> []) by (destruct sim; [discriminate|congruence]).
    assert (Hf : fsim <> []) by (destruct fsim; [discriminate|congruence]).
    assert (NF : nan_free (log ++ ext) -> hd NaN fsim <> NaN /\ last fsim NaN <> NaN).
    { intros NF.
      assert (G : forall v, In v fsim -> v <> NaN).
      { intros v Hv. assert (H : exists x, In (x, v) (combine sim fsim)).
        { clear -Hv L Lf. assert (E : length sim = length fsim) by lia. clear L Lf. revert sim E.
          induction fsim as [|a m IH]; intros [|b l] E; cbn in *; try discriminate; [destruct Hv|].
          destruct Hv as [<-|Hv]; [eauto|]. destruct (IH Hv l) as [x Hx]; [lia|]. eauto. }
        destruct H as [x Hx]. unfold nan_free in NF. rewrite Forall_forall in NF.
        apply (NF (x, v)). apply in_app_iff. auto. }
      split; apply G; [apply hd_in|apply last_in]; auto. }
    assert (NFe : nan_free (log ++ ext) -> forall x u, In (x, u) ext -> u <> NaN).
    { unfold nan_free. rewrite Forall_forall. intros H x u Hx. apply (H (x, u)). apply in_app_iff. auto. }
    destruct O as [(a & v & Ha & -> & -> & Hin & Hmin)|(ys & vs & -> & -> & Hys & Lv & Hin & Hmin)].
    - split.
      { split; auto. split; [rewrite set_last_length; auto|]. unfold set_last. apply Forall_app. split.
        - apply Forall_removelast; auto.
        - constructor; auto. apply proposal_length. split; auto. }
      split; [rewrite set_last_length; auto|]. split.
      { intros xv H. rewrite combine_set_last in H by lia. apply in_app_iff in H as [H|[<-|[]]]; apply in_app_iff; auto.
        left. apply C. apply In_removelast; auto. }
      assert (Hh : In (hd NaN fsim) (set_last fsim v)).
      { unfold set_last. apply in_app_iff. left. rewrite <- (hd_removelast fsim) by lia. apply hd_in.
        intros E. apply (f_equal (@length _)) in E. rewrite removelast_length in E. cbn in E. lia. }
      split; auto. intros M NN x u Hu. destruct (NF NN) as [NFh NFl]. apply in_app_iff in Hu as [Hu|Hu].
      + exists (hd NaN fsim). split; auto. apply (M (proj1 (proj1 (Forall_app _ _ _) NN)) x u Hu).
      + destruct (Hmin NFh NFl x u Hu (NFe NN x u Hu)) as [Q|Q]; [exists v|exists (hd NaN fsim)]; split; auto.
        unfold set_last. apply in_app_iff. right. left. auto.
    - split.
      { split; auto. split.
        - cbn. rewrite Hys, map_length. destruct sim; cbn in *; lia.
        - constructor; [rewrite Forall_forall in F; apply F, hd_in; auto|]. rewrite Hys. apply Forall_forall.
          intros y Hy. apply in_map_iff in Hy as (x & <- & Hx). rewrite Forall_forall in F. apply vlen_shrink; apply F.
          + apply hd_in; auto. + destruct sim; [destruct Hx|right; auto]. }
      split; [cbn; rewrite Lv, Hys, map_length; destruct sim; cbn in *; lia|]. split.
      { intros xv [<-|H]; apply in_app_iff; [left|right; auto]. apply C.
        destruct sim; [congruence|]. destruct fsim; [congruence|]. left. auto. }
      split; [left; auto|]. intros M NN x u Hu. destruct (NF NN) as [NFh NFl]. apply in_app_iff in Hu as [Hu|Hu].
      + exists (hd NaN fsim). split; [left; auto|]. apply (M (proj1 (proj1 (Forall_app _ _ _) NN)) x u Hu).
      + destruct (Hmin NFh NFl x u Hu (NFe NN x u Hu)) as [Q|Q].
        * exists u. split; [right; auto|]. apply fle_refl. eapply NFe; eauto.
        * exists (hd NaN fsim). split; [left; auto|]; auto. Qed.

  Lemma is_simplex_perm n s s' : Permutation s s' -> is_simplex n s -> is_simplex n s'.
  Proof. intros P (A & B & C). split; auto. split; [rewrite <- (Permutation_length P); auto|].
    rewrite Forall_forall in *. intros x Hx. apply C. eapply Permutation_in; [symmetry; exact P|auto]. Qed.

  Lemma Sorted_snoc {A} (R : A -> A -> Prop) l a b : Sorted R (l ++ [a]) -> R a b -> Sorted R ((l ++ [a]) ++ [b]).
  Proof. induction l as [|c l IH]; cbn; intros S Hab.
    - repeat constructor; auto.
    - inversion S as [|? ? S' H]; subst. constructor; [apply IH; auto|].
      destruct l as [|d l]; cbn in *; constructor; inversion H; auto. Qed.

  (** the state after one iteration *)
  Lemma inv_step n keep P s sim1 fsim1 w1 sim2 fsim2 : preserved n P -> nm_inv keep n P s ->
    nm_move func n (s_sim s) (s_fsim s) (s_world s) = Ok (sim1, fsim1, w1) ->
    sort_simplex argsort sim1 fsim1 = (sim2, fsim2) ->
    nm_inv keep n P {| s_sim := sim2; s_fsim := fsim2; s_world := w1; s_iter := S (s_iter s);
             s_hist := extend_history keep (s_hist s) sim2;
             s_fhist := extend_history keep (s_fhist s) fsim2 |} /\
    (w_calls (s_world s) < w_calls w1 <= w_calls (s_world s) + n + 2)%nat /\
    (exists ext, w_log w1 = w_log (s_world s) ++ ext).
  Proof. intros HP (E & W & FL & M & I & HF & (h & Hh) & (g & Hg) & H2 & HL & HS) Hm Hs. destruct HP as (P1 & P2 & P3).
    destruct (nm_move_spec n (s_sim s) (s_fsim s) (s_world s) sim1 fsim1 w1) as (ext & X & Lx & O); auto; try apply E.
    destruct (outcome_ok _ _ _ _ _ _ _ E O) as (A1 & A2 & A3 & A4 & A5).
    destruct (sort_spec sim1 fsim1 sim2 fsim2) as (S1 & S2 & S3 & S4 & S5); auto.
    { rewrite A2. apply A1. }
    destruct X as (X1 & X2 & X3).
    assert (E2 : entry_ok n (w_log w1) sim2 fsim2).
    { split; [eapply is_simplex_perm; [symmetry; exact S1|auto]|]. split; [rewrite (Permutation_length S2); auto|].
      split; auto. intros xv H. rewrite X1. apply A3. eapply Permutation_in; eauto. }
    assert (PS : P (s_sim s)). { rewrite Hh in HF. apply Forall_app in HF as [_ HF]. inversion HF; auto. }
    assert (PS2 : P sim2).
    { eapply P1; [symmetry; exact S1|]. destruct O as [(a & v & Ha & -> & _)|(ys & vs & -> & _ & -> & _)].
      - apply P2; auto. apply E. - apply P3; auto. apply E. }
    assert (Hmono : nle (hd NaN fsim2) (hd NaN (s_fsim s)) = true).
    { apply sorted_hd_min; auto. eapply Permutation_in; [symmetry; exact S2|auto]. }
    split; [|split; [lia|eauto]]. split; [exact E2|]. split; [cbn; rewrite X1, X2, app_length; lia|].
    split; [cbn; rewrite X1; apply faithful_app; auto; rewrite Nat.add_0_l, <- W; auto|]. split.
    { cbn. intros NN x u Hu. rewrite X1 in NN, Hu. destruct (A5 M NN x u Hu) as (v & Hv & Hvu).
      eapply fle_trans; [|exact Hvu]. apply nle_fle; [eapply fle_nnan_l; eauto|].
      apply sorted_hd_min; auto. eapply Permutation_in; [symmetry; exact S2|auto]. }
    split; [cbn; lia|].
    assert (F2 : Forall2 (entry_ok n (w_log w1)) (s_hist s) (s_fhist s)).
    { eapply Forall2_impl; [|exact H2]. intros a b Hab. rewrite X1. apply entry_ok_extend; auto. }
    unfold hist_ok. cbn [s_hist s_fhist s_sim s_fsim s_iter s_world extend_history]. destruct keep; cbn [extend_history].
    - split; [apply Forall_app; auto|]. split; [eauto|]. split; [eauto|]. split; [apply Forall2_app; auto|].
      split; [rewrite app_length; cbn; lia|]. rewrite Hg in *. apply Sorted_snoc; auto.
    - split; [auto|]. split; [exists []; auto|]. split; [exists []; auto|]. split; [auto|]. split; auto. Qed.

  (** why the loop stopped *)
  Definition exit_ok (maxfun maxiter : nat) (p : nm_params) (s : nm_state) : Prop :=
    (maxfun <= w_calls (s_world s))%nat \/ (maxiter <= s_iter s)%nat \/
    fprime_exceeded (p_fprime p) (s_sim s) (hd NaN (s_fsim s)) = Ok true \/
    converged p (s_sim s) (s_fsim s) = Ok true.

  Lemma fprime_ok c sim v n : is_simplex n sim -> exists b, fprime_exceeded c sim v = Ok b.
  Proof. intros (N & L & _). unfold fprime_exceeded. destruct c; [|eauto]. destruct sim as [|x [|y l]]; cbn in *; try lia; eauto. Qed.
  Lemma converged_ok p sim fsim n : is_simplex n sim -> exists b, converged p sim fsim = Ok b.
  Proof. intros (N & L & _). unfold converged. destruct sim as [|x [|y l]]; cbn in *; try lia; eauto. Qed.

  Lemma loop_spec fuel : forall n maxfun maxiter p P s s', preserved n P -> nm_inv (p_keep p) n P s ->
    nm_loop argsort func fuel n maxfun maxiter p s = Ok s' ->
    nm_inv (p_keep p) n P s' /\ exit_ok maxfun maxiter p s' /\
    (s' = s \/ (w_calls (s_world s) < w_calls (s_world s') <= maxfun + n + 1 /\ s_iter s' <= maxiter)%nat) /\
    (exists ext, w_log (s_world s') = w_log (s_world s) ++ ext).
  Proof. induction fuel as [|fuel IH]; intros n maxfun maxiter p P s s' HP I E.
    - cbn [nm_loop] in E. destruct ((_ <? _)%nat && _)%bool eqn:B; [discriminate|]. injection E as <-.
      split; auto. split; [|split; [auto|exists []; rewrite app_nil_r; auto]]. unfold exit_ok. apply andb_false_iff in B as [B|B]; apply Nat.ltb_ge in B; auto.
    - cbn [nm_loop] in E. destruct ((_ <? _)%nat && _)%bool eqn:B.
      2:{ injection E as <-. split; auto. split; [|split; [auto|exists []; rewrite app_nil_r; auto]]. unfold exit_ok. apply andb_false_iff in B as [B|B]; apply Nat.ltb_ge in B; auto. }
      apply andb_true_iff in B as [B1 B2]. apply Nat.ltb_lt in B1, B2.
      destruct (fprime_exceeded _ _ _) as [b|] eqn:Ef; cbn [bind] in E; [|discriminate].
      destruct b. { injection E as <-. split; auto. split; [|split; [auto|exists []; rewrite app_nil_r; auto]]. unfold exit_ok. auto. }
      destruct (converged p _ _) as [b|] eqn:Ec; cbn [bind] in E; [|discriminate].
      destruct b. { injection E as <-. split; auto. split; [|split; [auto|exists []; rewrite app_nil_r; auto]]. unfold exit_ok. auto. }
      destruct (nm_move _ _ _ _ _) as [[[sim1 fsim1] w1]|] eqn:Em; cbn [bind] in E; [|discriminate].
      destruct (sort_simplex argsort sim1 fsim1) as [sim2 fsim2] eqn:Es.
      destruct (inv_step n (p_keep p) P s sim1 fsim1 w1 sim2 fsim2 HP I Em Es) as (I2 & W & x1 & X1).
      destruct (IH _ _ _ _ _ _ _ HP I2 E) as (A & C & D & x2 & X2). split; auto. split; auto. split.
      + right. destruct D as [->|D]; cbn in *; lia.
      + exists (x1 ++ x2). cbn in X2. rewrite X2, X1, app_assoc. auto. Qed.

  Lemma loop_err fuel : forall n maxfun maxiter p P s e, preserved n P -> nm_inv (p_keep p) n P s ->
    (maxiter <= s_iter s + fuel)%nat ->
    nm_loop argsort func fuel n maxfun maxiter p s = Err e -> exists k x, func k x = Err e.
  Proof. induction fuel as [|fuel IH]; intros n maxfun maxiter p P s e HP I Hf E.
    - cbn [nm_loop] in E. destruct ((_ <? _)%nat && _)%bool eqn:B; [|discriminate].
      apply andb_true_iff in B as [B1 B2]. apply Nat.ltb_lt in B1, B2. lia.
    - cbn [nm_loop] in E. destruct ((_ <? _)%nat && _)%bool eqn:B; [|discriminate].
      destruct (fprime_ok (p_fprime p) (s_sim s) (hd NaN (s_fsim s)) n) as [b Eb]; [apply I|]. rewrite Eb in E. cbn [bind] in E.
      destruct b; [discriminate|].
      destruct (converged_ok p (s_sim s) (s_fsim s) n) as [b Ec]; [apply I|]. rewrite Ec in E. cbn [bind] in E.
      destruct b; [discriminate|].
      destruct (nm_move _ _ _ _ _) as [[[sim1 fsim1] w1]|e1] eqn:Em; cbn [bind] in E.
      + destruct (sort_simplex argsort sim1 fsim1) as [sim2 fsim2] eqn:Es.
        destruct (inv_step n (p_keep p) P s sim1 fsim1 w1 sim2 fsim2 HP I Em Es) as (I2 & W & _).
        eapply IH; [exact HP|exact I2| |exact E]. cbn. lia.
      + injection E as <-. eapply nm_move_err; eauto. Qed.

  (** the initial state of the loop *)
  Lemma init_inv n P initial w f0 sim fsim keep : preserved n P -> is_simplex n initial -> P initial ->
    call_all func {| w_calls := 0; w_log := [] |} initial = Ok (w, f0) -> sort_simplex argsort initial f0 = (sim, fsim) ->
    nm_inv keep n P {| s_sim := sim; s_fsim := fsim; s_world := w; s_iter := 1; s_hist := [sim]; s_fhist := [fsim] |} /\
    w_calls w = S n /\ w_log w = combine initial f0 /\ length f0 = length initial.
  Proof. intros HP Hi Pi C Hs. apply call_all_spec in C as (L & X1 & X2 & X3). cbn in X1, X2, X3.
    destruct (sort_spec _ _ _ _ (eq_sym L) Hs) as (S1 & S2 & S3 & S4 & S5).
    assert (Ln : length initial = S n) by apply Hi.
    assert (W : w_calls w = S n) by (rewrite X2, combine_length_eq; lia).
    assert (E : entry_ok n (w_log w) sim fsim).
    { split; [eapply is_simplex_perm; [symmetry; exact S1|auto]|]. split; [rewrite (Permutation_length S2); lia|].
      split; auto. intros xv H. rewrite X1. eapply Permutation_in; eauto. }
    split; [|auto]. split; [exact E|]. split; [cbn; rewrite X1, X2; auto|]. split; [cbn; rewrite X1; auto|]. split.
    { cbn. intros NN x u Hu. unfold nan_free in NN. rewrite Forall_forall in NN.
      apply nle_fle; [apply (NN (x, u)); auto|]. apply sorted_hd_min; auto.
      eapply Permutation_in; [symmetry; exact S2|]. rewrite X1 in Hu. apply in_combine_r in Hu. auto. }
    split; [cbn; lia|]. unfold hist_ok. cbn. split; [constructor; [|constructor]; eapply HP; [symmetry; exact S1|auto]|].
    split; [exists []; auto|]. split; [exists []; auto|]. split; [constructor; auto|]. split; [destruct keep; auto|].
    repeat constructor. Qed.

  Lemma well_shaped_spec n s : (1 <= n)%nat -> (well_shaped n s = true <-> is_simplex n s).
  Proof. intros N. unfold well_shaped, is_simplex. rewrite andb_true_iff, Nat.eqb_eq, forallb_forall, Forall_forall.
    split.
    - intros [A B]. repeat split; auto. intros x Hx. apply Nat.eqb_eq; auto.
    - intros (_ & A & B). split; auto. intros x Hx. apply Nat.eqb_eq; auto. Qed.

  Lemma root_spec n P p initial r w : preserved n P -> is_simplex n initial -> P initial ->
    root_nelder_mead argsort func p initial = Ok (r, w) ->
    exists s, nm_inv (p_keep p) n P s /\ exit_ok (limit (p_maxfev p) n) (limit (p_maxiter p) n) p s /\
      s_world s = w /\ (S n <= w_calls w <= limit (p_maxfev p) n + n + 1)%nat /\ (s_iter s <= Nat.max 1 (limit (p_maxiter p) n))%nat /\
      nm_status p (limit (p_maxfev p) n) (limit (p_maxiter p) n) s (np_min (s_fsim s)) = Ok (r_status r) /\
      r = {| r_pos := hd [] (s_sim s); r_value := np_min (s_fsim s); r_success := (r_status r =? 0)%Z;
             r_status := r_status r; r_num_fev := w_calls w; r_num_iter := s_iter s;
             r_simplex_history := s_hist s;
             r_fun_history := if p_keep p then Some (s_fhist s) else None |} /\
      (exists f0 ext, w_log w = combine initial f0 ++ ext /\ length f0 = length initial).
  Proof. intros HP Hi Pi E. unfold root_nelder_mead in E.
    destruct initial as [|x0 xs] eqn:Ein; [discriminate|]. rewrite <- Ein in *.
    assert (L0 : length x0 = n). { destruct Hi as (_ & _ & F). rewrite Ein in F. inversion F; auto. }
    rewrite L0 in E. rewrite (proj2 (well_shaped_spec n initial (proj1 Hi)) Hi) in E. cbn [negb] in E.
    destruct (call_all func _ initial) as [[w0 f0]|] eqn:C; cbn [bind] in E; [|discriminate].
    destruct (sort_simplex argsort initial f0) as [sim fsim] eqn:Es.
    destruct (init_inv n P initial w0 f0 sim fsim (p_keep p) HP Hi Pi C Es) as (I & W & LW & LF).
    destruct (nm_loop _ _ _ _ _ _ _ _) as [s|] eqn:El; cbn [bind] in E; [|discriminate].
    destruct (loop_spec _ _ _ _ _ _ _ _ HP I El) as (I2 & X & D & ext & LX).
    destruct (nm_status _ _ _ _ _) as [st|] eqn:St; cbn [bind] in E; [|discriminate].
    injection E as <- <-. exists s. cbn [r_status]. split; [exact I2|]. split; [exact X|]. split; [auto|].
    split; [destruct D as [->|D]; cbn in *; lia|]. split; [destruct D as [->|D]; cbn [s_iter]; lia|].
    split; [auto|]. split; [auto|]. exists f0, ext. cbn in LX. rewrite LX, LW. auto. Qed.

  Lemma root_err n p initial e : is_simplex n initial ->
    root_nelder_mead argsort func p initial = Err e -> exists k x, func k x = Err e.
  Proof. intros Hi E. unfold root_nelder_mead in E.
    destruct initial as [|x0 xs] eqn:Ein; [destruct Hi as (_ & Hi & _); discriminate|]. rewrite <- Ein in *.
    assert (L0 : length x0 = n). { destruct Hi as (_ & _ & F). rewrite Ein in F. inversion F; auto. }
    rewrite L0 in E. rewrite (proj2 (well_shaped_spec n initial (proj1 Hi)) Hi) in E. cbn [negb] in E.
    assert (HP : preserved n (fun _ => True)) by (split; auto).
    destruct (call_all func _ initial) as [[w0 f0]|e1] eqn:C; cbn [bind] in E; [|injection E as <-; eapply call_all_err; eauto].
    destruct (sort_simplex argsort initial f0) as [sim fsim] eqn:Es.
    destruct (init_inv n (fun _ => True) initial w0 f0 sim fsim (p_keep p) HP Hi Logic.I C Es) as (I & W & LW & LF).
    destruct (nm_loop _ _ _ _ _ _ _ _) as [s|e1] eqn:El; cbn [bind] in E.
    - destruct (loop_spec _ _ _ _ _ _ _ _ HP I El) as (I2 & X & D & _). unfold nm_status in E.
      destruct (_ <=? _)%nat; [discriminate|]. destruct (_ <=? _)%nat; [discriminate|].
      destruct (fprime_ok (p_fprime p) (s_sim s) (np_min (s_fsim s)) n) as [b Eb]; [apply I2|]. rewrite Eb in E. cbn [bind] in E.
      destruct b; discriminate.
    - injection E as <-. eapply loop_err; [exact HP|exact I| |exact El]. cbn. lia. Qed.
End NM.
