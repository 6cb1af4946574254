(** Consequences of the loop invariant: C18-C22. *)
From Verif Require Import Base BaseFacts CoordSys Values NelderMead SpecMin NelderMeadFacts AverageFacts.
Open Scope Qc_scope.

(** ** Reductions *)
Lemma fmin2_le x y : nle x y = true -> x <> NaN -> y <> NaN -> fmin2 x y = x.
Proof. intros. destruct x, y; cbn in *; try congruence; try discriminate.
  rewrite leb_spec in H. dltb q0 q; auto. exfalso. qlra. Qed.
Lemma np_min_sorted f fs : Sorted (fun x y => nle x y = true) (f :: fs) -> Forall (fun v => v <> NaN) (f :: fs) ->
  np_min (f :: fs) = f.
Proof. intros S N. apply Sorted_StronglySorted in S; [|intros a b c; apply nle_trans].
  inversion S as [|? ? S' F]; subst. inversion N as [|? ? Nf Nfs]; subst. clear S S' N. cbn.
  induction fs as [|g fs IH]; cbn; auto. inversion F; inversion Nfs; subst. rewrite fmin2_le; auto. Qed.
Lemma fold_fmin_nan l : forall x, x = NaN \/ In NaN l -> fold_left fmin2 l x = NaN.
Proof. induction l as [|y l IH]; cbn; intros x H.
  - destruct H as [H|[]]; auto.
  - apply IH. destruct H as [->|[->|H]]; auto. left. destruct x; auto. Qed.
Lemma np_min_nan l : In NaN l -> np_min l = NaN.
Proof. destruct l as [|x l]; [intros []|]. intros [->|H]; apply fold_fmin_nan; auto. Qed.

Lemma fmax2_fle x y b : fle (fmax2 x y) b = true <-> fle x b = true /\ fle y b = true.
Proof. destruct x, y, b; cbn; try (intuition congruence); try destruct (ltb _ _) eqn:E; cbn; rewrite ?leb_spec;
  rewrite ?ltb_spec, ?ltb_false in *; split; intros; try split; try tauto; try qlra; try (destruct H; qlra). Qed.
Lemma np_max_fle l b : l <> [] -> (fle (np_max l) b = true <-> Forall (fun v => fle v b = true) l).
Proof. destruct l as [|x l]; [congruence|]. intros _. cbn. revert x. induction l as [|y l IH]; intros x; cbn.
  - split; intros H; [auto|inversion H; auto].
  - rewrite IH. split; intros H.
    + inversion H as [|? ? A B]; subst. apply fmax2_fle in A as [A1 A2]. auto.
    + inversion H as [|? ? A B]; subst. inversion B; subst. constructor; auto. apply fmax2_fle; auto. Qed.
Lemma qmax_le x y b : qmax x y <= b <-> x <= b /\ y <= b.
Proof. unfold qmax. dltb x y; split; intros; try split; try tauto; try qlra. Qed.
Lemma np_max_q_le l b : l <> [] -> (np_max_q l <= b <-> Forall (fun v => v <= b) l).
Proof. destruct l as [|x l]; [congruence|]. intros _. cbn. revert x. induction l as [|y l IH]; intros x; cbn.
  - split; intros H; [auto|inversion H; auto].
  - rewrite IH. split; intros H.
    + inversion H as [|? ? A B]; subst. apply qmax_le in A as [A1 A2]. auto.
    + inversion H as [|? ? A B]; subst. inversion B; subst. constructor; auto. apply qmax_le; auto. Qed.
Lemma np_max_q_in l : l <> [] -> In (np_max_q l) l.
Proof. destruct l as [|x l]; [congruence|]. intros _. cbn. revert x. induction l as [|y l IH]; intros x; cbn; [auto|].
  destruct (IH (qmax x y)) as [H|H]; auto. rewrite <- H. unfold qmax. destruct (ltb x y); auto. Qed.

Lemma close_vsub tol x y : length x = length y -> (Forall (fun d => qabs d <= tol) (vsub x y) <-> close tol x y).
Proof. unfold vsub, close. revert y. induction x as [|a x IH]; intros [|b y] L; cbn in *; try discriminate; [split; constructor|].
  rewrite Forall_cons_iff, IH by lia. split; [intros [A B]; constructor; auto|]. intros H. inversion H; auto. Qed.

Lemma converged_spec n p sim fsim : is_simplex n sim -> length fsim = S n ->
  (converged p sim fsim = Ok true <-> tolerances_met (p_xtol p) (p_ftol p) sim fsim).
Proof. intros (N & L & F) Lf. unfold converged, tolerances_met.
  destruct sim as [|x0 [|x1 xs]]; [cbn in L; lia..|]. destruct fsim as [|f0 [|f1 fs]]; [cbn in Lf; lia..|].
  cbn [tl hd]. set (rest := x1 :: xs). set (frest := f1 :: fs).
  assert (Fr : Forall (fun x => length x = length x0) rest).
  { inversion F as [|? ? A B]; subst. eapply Forall_impl; [|exact B]. cbn. intros; congruence. }
  assert (L0 : length x0 = n) by (inversion F; auto).
  assert (NE : map qabs (concat (map (fun x => vsub x x0) rest)) <> []).
  { unfold rest. cbn. intros E. apply (f_equal (@length _)) in E. rewrite map_length, app_length in E.
    unfold vsub in E. rewrite map2_length in E; inversion Fr; cbn in *; lia. }
  split.
  - intros E. match type of E with Ok ?b = _ => assert (E' : b = true) by congruence end. clear E. apply andb_true_iff in E' as [E1 E2].
    apply leb_spec in E1. rewrite np_max_q_le in E1 by auto.
    rewrite np_max_fle in E2 by discriminate. split.
    + apply Forall_forall. intros x Hx. apply close_vsub; [rewrite Forall_forall in Fr; auto|].
      rewrite Forall_forall in E1. apply Forall_forall. intros d Hd. apply E1. apply in_map. apply in_concat.
      exists (vsub x x0). split; auto. apply in_map_iff. eauto.
    + apply Forall_forall. intros f Hf. rewrite Forall_forall in E2. apply E2. apply in_map; auto.
  - intros [E1 E2]. f_equal. apply andb_true_iff. split.
    + apply leb_spec. apply np_max_q_le; auto. apply Forall_forall. intros d Hd. apply in_map_iff in Hd as (d' & <- & Hd).
      apply in_concat in Hd as (v & Hv & Hd). apply in_map_iff in Hv as (x & <- & Hx).
      rewrite Forall_forall in E1, Fr. specialize (E1 x Hx). apply close_vsub in E1; auto. rewrite Forall_forall in E1. auto.
    + apply np_max_fle; [discriminate|]. apply Forall_forall. intros v Hv. apply in_map_iff in Hv as (f & <- & Hf).
      rewrite Forall_forall in E2. auto. Qed.

Lemma pairs_longest sim : pairs sim <> [] -> longest_edge_sq sim (np_max_q (map edge_sq (pairs sim))).
Proof. intros H. assert (H' : map edge_sq (pairs sim) <> []) by (destruct (pairs sim); [congruence|discriminate]). split.
  - pose proof (np_max_q_in _ H') as I. apply in_map_iff in I as (e & E & I). eauto.
  - intros e He. assert (Q : np_max_q (map edge_sq (pairs sim)) <= np_max_q (map edge_sq (pairs sim))) by qlra.
    rewrite np_max_q_le in Q by auto. rewrite Forall_forall in Q. apply Q. apply in_map; auto. Qed.

(** ** The result of one run *)
Definition final_values (log : list (point * fval)) (r : min_result) (fsim : list fval) : Prop :=
  exists sim h, r_simplex_history r = h ++ [sim] /\ Forall2 (fun x v => In (x, v) log) sim fsim /\
    Sorted (fun x y => nle x y = true) fsim /\
    hd [] sim = r_pos r /\ np_min fsim = r_value r /\
    (forall fh, r_fun_history r = Some fh -> last fh [] = fsim).

Lemma combine_Forall2 {A B} (R : A * B -> Prop) l m : length l = length m ->
  (forall xv, In xv (combine l m) -> R xv) -> Forall2 (fun x v => R (x, v)) l m.
Proof. revert m. induction l as [|a l IH]; intros [|b m] L H; cbn in *; try discriminate; constructor; auto. Qed.

Lemma Forall2_length {A B} (R : A -> B -> Prop) l m : Forall2 R l m -> length l = length m.
Proof. induction 1; cbn; auto. Qed.
Lemma preserved_True n : preserved n (fun _ => True).
Proof. split; auto. Qed.

Section R.
  Variables (argsort : list fval -> list nat) (func : nat -> point -> res fval) (p : nm_params) (n : nat) (initial : list point).
  Hypothesis Hsort : argsort_ok argsort.
  Hypothesis Hi : is_simplex n initial.

  Lemma entry_nan_free log sim fsim : entry_ok n log sim fsim -> nan_free log -> Forall (fun v => v <> NaN) fsim.
  Proof. intros (S & L & _ & C) N. apply Forall_forall. intros v Hv.
    assert (H : exists x, In (x, v) (combine sim fsim)).
    { destruct S as (_ & Ls & _). clear -Hv L Ls. assert (E : length sim = length fsim) by lia. clear L Ls. revert sim E.
      induction fsim as [|a m IH]; intros [|b l] E; cbn in *; try discriminate; [destruct Hv|].
      destruct Hv as [<-|Hv]; [eauto|]. destruct (IH Hv l) as [x Hx]; [lia|]. eauto. }
    destruct H as [x Hx]. unfold nan_free in N. rewrite Forall_forall in N. apply (N (x, v)). auto. Qed.

  Variables (r : min_result) (w : world).
  Hypothesis E : root_nelder_mead argsort func p initial = Ok (r, w).

  Lemma run_best : nan_free (w_log w) ->
    In (r_pos r, r_value r) (w_log w) /\ (forall x u, In (x, u) (w_log w) -> fle (r_value r) u = true).
  Proof. intros N. destruct (root_spec _ Hsort _ _ _ _ _ _ _ (preserved_True n) Hi I E) as (s & Inv & X & W & B1 & B2 & St & R & _).
    destruct Inv as (En & Wc & FL & M & It & HO). rewrite W in *.
    pose proof (entry_nan_free _ _ _ En N) as NF. pose proof En as ((N1 & Ls & F) & Lf & S & C).
    destruct (s_sim s) as [|x0 xs] eqn:Es; [discriminate|]. destruct (s_fsim s) as [|f0 fs] eqn:Ef; [discriminate|].
    rewrite R. cbn [r_pos r_value hd]. rewrite np_min_sorted by auto. split; [apply C; left; auto|]. apply M; auto. Qed.

  Lemma run_log : r_num_fev r = length (w_log w) /\
    (forall i x v, nth_error (w_log w) i = Some (x, v) -> func i x = Ok v).
  Proof. destruct (root_spec _ Hsort _ _ _ _ _ _ _ (preserved_True n) Hi I E) as (s & Inv & X & W & B1 & B2 & St & R & _).
    destruct Inv as (En & Wc & FL & M & It & HO). rewrite W in *. split; [rewrite R; auto|]. exact FL. Qed.

  Lemma run_stateless f : stateless f func -> nan_free (w_log w) -> r_value r = f (r_pos r).
  Proof. intros Hf N. destruct (run_best N) as [Hin _]. apply In_nth_error in Hin as [i Hi'].
    apply run_log in Hi'. rewrite Hf in Hi'. congruence. Qed.

  Lemma run_status :
    let maxfev := limit (p_maxfev p) n in let maxiter := limit (p_maxiter p) n in
    exists sim h, r_simplex_history r = h ++ [sim] /\
    (r_success r = true <-> r_status r = 0%Z) /\
    (r_status r = 1%Z <-> (maxfev <= r_num_fev r)%nat) /\
    (r_status r = 2%Z <-> (r_num_fev r < maxfev /\ maxiter <= r_num_iter r)%nat) /\
    (r_status r = 3%Z <-> (r_num_fev r < maxfev /\ r_num_iter r < maxiter)%nat /\
                          fprime_exceeded (p_fprime p) sim (r_value r) = Ok true) /\
    (r_status r = 0%Z <-> (r_num_fev r < maxfev /\ r_num_iter r < maxiter)%nat /\
                          fprime_exceeded (p_fprime p) sim (r_value r) = Ok false).
  Proof. destruct (root_spec _ Hsort _ _ _ _ _ _ _ (preserved_True n) Hi I E) as (s & Inv & X & W & B1 & B2 & St & R & _).
    destruct Inv as (En & Wc & FL & M & It & HO). rewrite W in *.
    destruct HO as (_ & (h & Hh) & _). exists (s_sim s), h.
    assert (R1 : r_success r = (r_status r =? 0)%Z) by (rewrite R; auto).
    assert (R2 : r_num_fev r = w_calls w) by (rewrite R; auto).
    assert (R3 : r_num_iter r = s_iter s) by (rewrite R; auto).
    assert (R4 : r_value r = np_min (s_fsim s)) by (rewrite R; auto).
    assert (R5 : r_simplex_history r = s_hist s) by (rewrite R; auto).
    rewrite R1, R2, R3, R4, R5. split; auto. split; [apply Z.eqb_eq|].
    unfold nm_status in St. rewrite W in St. destruct (Nat.leb_spec (limit (p_maxfev p) n) (w_calls w)) as [A|A].
    { injection St as <-. repeat split; intros; try discriminate; try lia. }
    destruct (Nat.leb_spec (limit (p_maxiter p) n) (s_iter s)) as [A'|A'].
    { injection St as <-. repeat split; intros; try discriminate; try lia. }
    destruct (fprime_exceeded (p_fprime p) (s_sim s) (np_min (s_fsim s))) as [b|] eqn:Eb; cbn [bind] in St; [|discriminate].
    destruct b; injection St as <-; repeat split; intros; try discriminate; try lia;
      repeat match goal with H : _ /\ _ |- _ => destruct H end; congruence. Qed.

  Lemma run_converged : nan_free (w_log w) -> r_success r = true ->
    exists sim fsim, final_values (w_log w) r fsim /\ (exists h, r_simplex_history r = h ++ [sim]) /\
      tolerances_met (p_xtol p) (p_ftol p) sim fsim.
  Proof. intros N Sc. destruct (root_spec _ Hsort _ _ _ _ _ _ _ (preserved_True n) Hi I E) as (s & Inv & X & W & B1 & B2 & St & R & _).
    destruct Inv as (En & Wc & FL & M & It & HO). rewrite W in *.
    pose proof (entry_nan_free _ _ _ En N) as NF. pose proof En as ((N1 & Ls & F) & Lf & S & C).
    destruct HO as (_ & (h & Hh) & (g & Hg) & _).
    assert (Sc' : r_status r = 0%Z). { rewrite R in Sc. cbn in Sc. apply Z.eqb_eq; auto. }
    exists (s_sim s), (s_fsim s). split; [|split].
    - exists (s_sim s), h. rewrite R. cbn. repeat split; auto.
      + apply (combine_Forall2 (fun xv => In xv (w_log w))); auto. lia.
      + intros fh. destruct (p_keep p); [|discriminate]. intros Q; injection Q as <-. rewrite Hg. apply last_last.
    - exists h. rewrite R. auto.
    - rewrite Sc' in St. unfold nm_status in St. rewrite W in St.
      destruct (Nat.leb_spec (limit (p_maxfev p) n) (w_calls w)) as [A|A]; [discriminate|].
      destruct (Nat.leb_spec (limit (p_maxiter p) n) (s_iter s)) as [A'|A']; [discriminate|].
      destruct (fprime_exceeded (p_fprime p) (s_sim s) (np_min (s_fsim s))) as [b|] eqn:Eb; cbn [bind] in St; [|discriminate].
      destruct b; [discriminate|].
      destruct X as [X|[X|[X|X]]]; [rewrite W in X; lia|lia| |].
      + exfalso. destruct (s_fsim s) as [|f0 fs]; [discriminate|]. rewrite np_min_sorted in Eb by auto. cbn in X. congruence.
      + apply (converged_spec n) in X; auto. split; auto. Qed.

  Lemma run_counts : (r_num_fev r <= limit (p_maxfev p) n + n + 1 /\ n + 1 <= r_num_fev r /\
    r_num_iter r <= Nat.max 1 (limit (p_maxiter p) n) /\ 1 <= r_num_iter r)%nat /\
    length (r_simplex_history r) = if p_keep p then r_num_iter r else 1%nat.
  Proof. destruct (root_spec _ Hsort _ _ _ _ _ _ _ (preserved_True n) Hi I E) as (s & Inv & X & W & B1 & B2 & St & R & _).
    destruct Inv as (En & Wc & FL & M & It & HO). rewrite W in *. destruct HO as (_ & _ & _ & _ & HL & _).
    assert (R2 : r_num_fev r = w_calls w) by (rewrite R; auto).
    assert (R3 : r_num_iter r = s_iter s) by (rewrite R; auto).
    assert (R5 : r_simplex_history r = s_hist s) by (rewrite R; auto).
    rewrite R2, R3, R5. split; auto. lia. Qed.

  (** C21 *)
  Lemma run_history : p_keep p = true -> exists fh, r_fun_history r = Some fh /\
    Forall2 (fun sim fsim => is_simplex n sim /\ Sorted (fun x y => nle x y = true) fsim /\
                             Forall2 (fun x v => In (x, v) (w_log w)) sim fsim) (r_simplex_history r) fh /\
    Sorted (fun f g => nle (hd NaN g) (hd NaN f) = true) fh /\
    hd [] (last (r_simplex_history r) []) = r_pos r /\ np_min (last fh []) = r_value r /\
    length fh = r_num_iter r.
  Proof. intros K. destruct (root_spec _ Hsort _ _ _ _ _ _ _ (preserved_True n) Hi I E) as (s & Inv & X & W & B1 & B2 & St & R & _).
    destruct Inv as (En & Wc & FL & M & It & HO). rewrite W in *.
    destruct HO as (_ & (h & Hh) & (g & Hg) & F2 & HL & HS). rewrite K in *. rewrite R. cbn.
    exists (s_fhist s). split; auto. rewrite W in *. split.
    { eapply Forall2_impl; [|exact F2]. intros sim fsim (A & B & C & D). split; auto. split; auto.
      apply (combine_Forall2 (fun xv => In xv (w_log w))); auto. destruct A as (_ & A & _). lia. }
    split; auto. rewrite <- (Forall2_length _ _ _ F2), HL, Hh, Hg, !last_last. auto. Qed.

  Lemma run_final : exists sim fsim h, r_simplex_history r = h ++ [sim] /\ is_simplex n sim /\
    Forall2 (fun x v => In (x, v) (w_log w)) sim fsim /\ Sorted (fun x y => nle x y = true) fsim /\
    hd [] sim = r_pos r /\ np_min fsim = r_value r.
  Proof. destruct (root_spec _ Hsort _ _ _ _ _ _ _ (preserved_True n) Hi I E) as (s & Inv & X & W & B1 & B2 & St & R & _).
    destruct Inv as ((A & B & C & D) & Wc & FL & M & It & HO). rewrite W in *.
    destruct HO as (_ & (h & Hh) & _). exists (s_sim s), (s_fsim s), h. rewrite R. cbn. repeat split; auto; try apply A.
    apply (combine_Forall2 (fun xv => In xv (w_log w))); auto. destruct A as (_ & A & _). lia. Qed.

  Lemma run_initial : exists f0 ext, w_log w = combine initial f0 ++ ext /\ length f0 = length initial.
  Proof. destruct (root_spec _ Hsort _ _ _ _ _ _ _ (preserved_True n) Hi I E) as (s & Inv & X & W & B1 & B2 & St & R & H). auto. Qed.
End R.

(** ** Switching the history off *)
Definition without_history (p : nm_params) : nm_params :=
  {| p_xtol := p_xtol p; p_ftol := p_ftol p; p_maxiter := p_maxiter p; p_maxfev := p_maxfev p;
     p_fprime := p_fprime p; p_keep := false |}.
Definition drop_history (r : min_result) : min_result :=
  {| r_pos := r_pos r; r_value := r_value r; r_success := r_success r; r_status := r_status r;
     r_num_fev := r_num_fev r; r_num_iter := r_num_iter r;
     r_simplex_history := [last (r_simplex_history r) []]; r_fun_history := None |}.
Definition drop_hist_state (s : nm_state) : nm_state :=
  {| s_sim := s_sim s; s_fsim := s_fsim s; s_world := s_world s; s_iter := s_iter s;
     s_hist := [last (s_hist s) []]; s_fhist := [last (s_fhist s) []] |}.
Definition rmap {A B} (f : A -> B) (x : res A) : res B := match x with Ok a => Ok (f a) | Err e => Err e end.

Lemma loop_keep argsort func fuel : forall n mf mi p s, 
  nm_loop argsort func fuel n mf mi (without_history p) (drop_hist_state s) =
  rmap drop_hist_state (nm_loop argsort func fuel n mf mi p s).
Proof. induction fuel as [|fuel IH]; intros n mf mi p s; cbn [nm_loop].
  - cbn [drop_hist_state s_world s_iter]. destruct (_ && _)%bool; reflexivity.
  - cbn [drop_hist_state s_world s_iter s_sim s_fsim]. destruct (_ && _)%bool; [|reflexivity].
    cbn [without_history p_fprime]. destruct (fprime_exceeded _ _ _) as [b|]; cbn [bind rmap]; [|reflexivity].
    destruct b; [reflexivity|].
    replace (converged (without_history p) (s_sim s) (s_fsim s)) with (converged p (s_sim s) (s_fsim s)) by reflexivity.
    destruct (converged _ _ _) as [b|]; cbn [bind rmap]; [|reflexivity]. destruct b; [reflexivity|].
    destruct (nm_move _ _ _ _ _) as [[[s1 f1] w1]|]; cbn [bind rmap]; [|reflexivity].
    destruct (sort_simplex argsort s1 f1) as [s2 f2]. rewrite <- IH. f_equal. unfold drop_hist_state. cbn.
    destruct (p_keep p); cbn; rewrite ?last_last; reflexivity. Qed.

Lemma root_keep argsort func p initial :
  root_nelder_mead argsort func (without_history p) initial =
  rmap (fun rw => (drop_history (fst rw), snd rw)) (root_nelder_mead argsort func p initial).
Proof. unfold root_nelder_mead. destruct initial as [|x0 xs]; [reflexivity|].
  cbn [without_history p_maxiter p_maxfev p_keep]. destruct (negb _); [reflexivity|].
  destruct (call_all _ _ _) as [[w f0]|]; cbn [bind rmap]; [|reflexivity].
  destruct (sort_simplex _ _ _) as [sim fsim].
  match goal with |- context [nm_loop _ _ ?f ?n ?mf ?mi (without_history p) ?s] =>
    change s with (drop_hist_state s); rewrite (loop_keep argsort func f n mf mi p s) end.
  destruct (nm_loop _ _ _ _ _ _ _ _) as [s|]; cbn [bind rmap]; [|reflexivity].
  unfold nm_status. cbn [drop_hist_state s_world s_iter s_sim s_fsim without_history p_fprime].
  destruct (_ <=? _)%nat; [reflexivity|]. destruct (_ <=? _)%nat; [reflexivity|].
  destruct (fprime_exceeded _ _ _) as [b|]; cbn [bind rmap]; [|reflexivity]. destruct b; reflexivity. Qed.

(** ** Two-step minimization *)
Lemma blow_up_simplex n s : is_simplex n s -> is_simplex n (blow_up s).
Proof. intros (A & B & C). split; auto. unfold blow_up. split; [rewrite map_length; auto|].
  apply Forall_forall. intros y Hy. apply in_map_iff in Hy as (x & <- & Hx). rewrite Forall_forall in C.
  assert (H0 : length (hd [] s) = n) by (apply C, hd_in; destruct s; [destruct Hx|congruence]).
  specialize (C x Hx). unfold vadd, vscale, vsub. rewrite !map2_length; rewrite ?map_length, ?map2_length; auto; lia. Qed.
Lemma blow_up_hd s : s <> [] -> hd [] (blow_up s) = hd [] s.
Proof. destruct s as [|x s]; [congruence|]. intros _. cbn [blow_up map hd].
  unfold vadd, vscale, vsub. induction x as [|a x IH]; cbn; auto. f_equal; [ring|exact IH]. Qed.

Section Two.
  Variables (argsort : list fval -> list nat) (func : nat -> point -> res fval) (fk : nat -> point -> res fval)
    (p : nm_params) (n : nat) (initial : list point).
  Hypothesis Hsort : argsort_ok argsort.
  Hypothesis Hi : is_simplex n initial.
  Variables (r : result) (ow : option world) (w : world).
  Hypothesis E : run_minimization argsort func (Some fk) p initial = Ok (r, ow, w).

  Lemma two_step : exists r1 w1 r2 sim h, ow = Some w1 /\ r = Joined r2 r1 None /\
    root_nelder_mead argsort (add_fake_potential fk func) (with_ftol_inf p) initial = Ok (r1, w1) /\
    r_simplex_history r1 = h ++ [sim] /\ is_simplex n (blow_up sim) /\ hd [] (blow_up sim) = r_pos r1 /\
    root_nelder_mead argsort (later func (w_calls w1)) p (blow_up sim) = Ok (r2, w).
  Proof. unfold run_minimization in E.
    destruct (root_nelder_mead argsort (add_fake_potential fk func) _ _) as [[r1 w1]|] eqn:E1; cbn [bind] in E; [|discriminate].
    destruct (run_final _ _ _ _ _ Hsort Hi _ _ E1) as (sim & fsim & h & Hh & Si & _ & _ & Hp & _).
    rewrite Hh, rev_app_distr in E. cbn [rev app] in E.
    destruct (root_nelder_mead argsort (later func (w_calls w1)) p (blow_up sim)) as [[r2 w2]|] eqn:E2; cbn [bind] in E; [|discriminate].
    injection E as <- <- <-. exists r1, w1, r2, sim, h. split; auto. split; auto. split; auto. split; auto.
    split; [apply blow_up_simplex; exact Si|]. split; [|auto]. rewrite blow_up_hd; auto. destruct Si as (_ & L & _). destruct sim; [discriminate|congruence]. Qed.

  Lemma two_step_err e : run_minimization argsort func (Some fk) p initial = Err e ->
    (exists k x, func k x = Err e) \/ (exists k x, fk k x = Err e).
  Proof. clear E. unfold run_minimization. intros E.
    destruct (root_nelder_mead argsort (add_fake_potential fk func) _ _) as [[r1 w1]|e1] eqn:E1; cbn [bind] in E.
    - destruct (run_final _ _ _ _ _ Hsort Hi _ _ E1) as (sim & fsim & h & Hh & Si & _ & _ & Hp & _).
      rewrite Hh, rev_app_distr in E. cbn [rev app] in E.
      destruct (root_nelder_mead argsort (later func (w_calls w1)) p (blow_up sim)) as [[r2 w2]|e2] eqn:E2; cbn [bind] in E; [discriminate|].
      injection E as <-. apply (root_err _ Hsort _ n) in E2 as (k & x & Hk); [|apply blow_up_simplex; auto].
      left. unfold later in Hk. eauto.
    - injection E as <-. apply (root_err _ Hsort _ n) in E1 as (k & x & Hk); auto.
      unfold add_fake_potential in Hk. destruct (func k x) as [v|] eqn:F; cbn in Hk; [|injection Hk as ->; eauto].
      destruct (fk k x) as [u|] eqn:G; cbn in Hk; [discriminate|injection Hk as ->; eauto]. Qed.


  (** the second run is at least as good as the first run's result *)
  Lemma two_step_improves f : stateless f func -> nan_free (w_log w) ->
    value_of r = f (pos_of r) /\
    exists r1 w1, ow = Some w1 /\ root_nelder_mead argsort (add_fake_potential fk func) (with_ftol_inf p) initial = Ok (r1, w1) /\
      fle (value_of r) (f (r_pos r1)) = true.
  Proof. intros Hf N. destruct two_step as (r1 & w1 & r2 & sim & h & -> & -> & E1 & Hh & Si & Hp & E2).
    assert (Hl : stateless f (later func (w_calls w1))) by (intros k x; apply Hf).
    split; [cbn; eapply run_stateless; eauto|]. exists r1, w1. split; auto. split; auto. cbn.
    destruct (run_initial _ _ _ _ _ Hsort Si _ _ E2) as (f0 & ext & Hw & L).
    destruct (run_best _ _ _ _ _ Hsort Si _ _ E2 N) as [_ Hb].
    destruct (blow_up sim) as [|x0 xs] eqn:Eb; [destruct Si as (_ & L' & _); discriminate|].
    destruct f0 as [|v f0]; [discriminate|]. cbn in Hp. subst x0.
    destruct (run_log _ _ _ _ _ Hsort Si _ _ E2) as [_ HL].
    assert (Q : nth_error (w_log w) 0 = Some (r_pos r1, v)) by (rewrite Hw; reflexivity).
    pose proof (HL _ _ _ Q) as V. rewrite Hl in V. injection V as ->. apply (Hb (r_pos r1)). eapply nth_error_In; eauto. Qed.
End Two.
