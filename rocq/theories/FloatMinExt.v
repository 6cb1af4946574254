(** The evaluations of a minimization in double precision are at points of the right dimension:
    only the values of the function there matter. *)
From Verif Require Import Base BaseFacts NelderMead NelderMeadFacts.
From Coq Require Import ZArith.
From Flocq Require Import Core BinarySingleNaN.
From Verif Require Import Float FloatVector FloatMin FloatOrder SpecFloatMin FloatMinFacts.
Open Scope list_scope.

Section Ext.
  Variables (argsort : list double -> list nat) (np_dmin : list double -> double) (f f' : nat -> fpoint -> res double) (n : nat).
  Hypothesis Hsort : dargsort_ok argsort.
  Hypothesis Agree : forall k x, length x = n -> f k x = f' k x.

  Lemma dcall_ext w x : length x = n -> dcall f w x = dcall f' w x.
  Proof. intros L. unfold dcall. rewrite Agree; auto. Qed.
  Lemma dcall_all_ext xs : Forall (fun x => length x = n) xs -> forall w, dcall_all f w xs = dcall_all f' w xs.
  Proof. induction 1 as [|x xs L _ IH]; intros w; cbn; auto. rewrite dcall_ext by auto. destruct (dcall f' w x) as [[w1 v]|]; cbn; auto. rewrite IH. reflexivity. Qed.
  Lemma shrunk_len x0 x : length x0 = n -> length x = n -> length (shrunk x0 x) = n.
  Proof. intros A B. unfold shrunk, dvadd, dvscale, dvsub. rewrite map2_length; auto. rewrite map_length, map2_length; congruence. Qed.
  Lemma dshrink_ext x0 xs : length x0 = n -> Forall (fun x => length x = n) xs -> forall w, dshrink_loop f x0 w xs = dshrink_loop f' x0 w xs.
  Proof. intros L0. induction 1 as [|x xs L _ IH]; intros w; cbn; auto. rewrite dcall_ext by (apply shrunk_len; auto). destruct (dcall f' w _) as [[w1 v]|]; cbn; auto. rewrite IH. reflexivity. Qed.
  Lemma dnm_move_ext sim fsim w : is_dsimplex n sim -> dnm_move f n sim fsim w = dnm_move f' n sim fsim w.
  Proof. intros (N1 & L & F).
    assert (Lc : length (dcentroid n (removelast sim)) = n).
    { apply dcentroid_length; [apply Forall_removelast; auto|]. intros Q. apply (f_equal (@length _)) in Q. rewrite removelast_length, L in Q. cbn in Q. lia. }
    assert (Lw : length (last sim []) = n).
    { apply (Forall_last (fun x => length x = n) sim []); auto. destruct sim; [discriminate|congruence]. }
    assert (L0 : length (hd [] sim) = n) by (destruct sim; [discriminate|inversion F; auto]).
    assert (Ft : Forall (fun x => length x = n) (tl sim)) by (destruct sim; [auto|inversion F; auto]).
    unfold dnm_move. rewrite dcall_ext by (apply dvlen; auto). destruct (dcall f' w _) as [[w1 fxr]|]; cbn [bind]; auto.
    destruct (flt fxr (hd nan fsim)).
    { rewrite dcall_ext by (apply dvlen; auto). reflexivity. }
    destruct (flt fxr _); auto. destruct (flt fxr (last fsim nan)).
    - rewrite dcall_ext by (apply dvlen; auto). destruct (dcall f' w1 _) as [[w2 fxc]|]; cbn [bind]; auto. destruct (dle fxc fxr); cbn [bind]; auto. rewrite dshrink_ext; auto.
    - rewrite dcall_ext by (apply dvlen; auto). destruct (dcall f' w1 _) as [[w2 fxc]|]; cbn [bind]; auto. destruct (flt fxc _); cbn [bind]; auto. rewrite dshrink_ext; auto. Qed.
  Lemma dloop_ext fuel : forall maxfun maxiter p s, dnm_inv f (dp_keep p) n s -> dnm_loop argsort f fuel n maxfun maxiter p s = dnm_loop argsort f' fuel n maxfun maxiter p s.
  Proof. induction fuel as [|fuel IH]; intros maxfun maxiter p s I; cbn [dnm_loop]; destruct (_ && _)%bool; auto.
    destruct (dfprime_exceeded _ _ _) as [[|]|]; cbn [bind]; auto. destruct (dconverged _ _ _) as [[|]|]; cbn [bind]; auto.
    rewrite <- dnm_move_ext by apply I. destruct (dnm_move f n _ _ _) as [[[sim1 fsim1] w1]|] eqn:Em; cbn [bind]; auto.
    destruct (dsort_simplex argsort sim1 fsim1) as [sim2 fsim2] eqn:Es. apply IH. eapply dinv_step; eauto. Qed.
  Lemma droot_ext p initial : is_dsimplex n initial -> droot_nelder_mead argsort np_dmin f p initial = droot_nelder_mead argsort np_dmin f' p initial.
  Proof. intros Hi. unfold droot_nelder_mead. destruct initial as [|x0 xs] eqn:Ein; [reflexivity|]. rewrite <- Ein in *.
    assert (L0 : length x0 = n). { destruct Hi as (_ & _ & F). rewrite Ein in F. inversion F; auto. }
    rewrite L0. destruct (negb _); auto. rewrite <- dcall_all_ext by apply Hi. destruct (dcall_all f _ initial) as [[w0 f0]|] eqn:C; cbn [bind]; auto.
    destruct (dsort_simplex argsort initial f0) as [sim fsim] eqn:Es. rewrite dloop_ext; [reflexivity|]. eapply dinit_inv; eauto. Qed.
End Ext.

(** an exception of a minimization was raised by the function at a point of the right dimension *)
Lemma droot_err_len argsort np_dmin func n p initial e : dargsort_ok argsort -> is_dsimplex n initial ->
  droot_nelder_mead argsort np_dmin func p initial = Err e -> exists k x, length x = n /\ func k x = Err e.
Proof. intros Hs Hi E. pose (func' := fun (k : nat) (x : fpoint) => if (length x =? n)%nat then func k x else Ok nan).
  rewrite (droot_ext argsort np_dmin func func' n Hs) in E; auto; [|intros k x L; unfold func'; rewrite L, Nat.eqb_refl; reflexivity].
  destruct (droot_err argsort Hs np_dmin func' n p initial e Hi E) as (k & x & H). unfold func' in H. destruct (length x =? n)%nat eqn:L; [|discriminate]. apply Nat.eqb_eq in L. eauto. Qed.
