(** An argsort implementation, the meaning of the derivative cutoff over the
    reals, final forms of C22/C23 and concrete runs. *)
From Verif Require Import Base BaseFacts CoordSys SpecGeom CoordSysFacts CoordSysR Values NelderMead SpecMin
  QueueFacts NelderMeadFacts NelderMeadProps NelderMeadAffine.
From Coq Require Import Reals Qreals.
From Coq Require Import Lra.
Open Scope Qc_scope.

(** a stable argsort (NumPy's behaviour for short arrays) *)
Definition stable_argsort (l : list fval) : list nat :=
  sort_by (fun i j => nle (nth i l NaN) (nth j l NaN)) (seq 0 (length l)).
Lemma stable_argsort_ok : argsort_ok stable_argsort.
Proof. intros l. split; [apply sort_perm|]. unfold stable_argsort.
  set (leb' := fun i j => nle (nth i l NaN) (nth j l NaN)).
  assert (S : sorted leb' (sort_by leb' (seq 0 (length l)))).
  { apply sort_sorted; unfold leb'; intros; [apply nle_total|eapply nle_trans; eauto]. }
  induction S as [|x m Hx S IH]; cbn; constructor; auto.
  destruct m as [|y m]; cbn; constructor. inversion Hx; auto. Qed.

(** [quot_gt] is the comparison [f / sqrt m > c] *)
Lemma quot_gt_spec (a m c : Qc) : 0 < m ->
  (quot_gt (Fin a) m c = true <-> (Qc2R a / sqrt (Qc2R m) > Qc2R c)%R).
Proof. intros Hm. unfold quot_gt.
  assert (Hm0 : Base.eqb m 0 = false) by (apply eqb_false; apply pos_neq0; auto). rewrite Hm0.
  assert (Rm : (0 < Qc2R m)%R) by (rewrite <- Qc2R_0; apply Qc2R_lt; auto).
  pose proof (sqrt_lt_R0 _ Rm) as Sp. pose proof (sqrt_sqrt (Qc2R m) (Rlt_le _ _ Rm)) as Sq.
  assert (D : (Qc2R a / sqrt (Qc2R m) > Qc2R c <-> Qc2R c * sqrt (Qc2R m) < Qc2R a)%R).
  { unfold Rdiv. split; intros H.
    - apply (Rmult_lt_compat_r (sqrt (Qc2R m))) in H; auto. rewrite Rmult_assoc, Rinv_l, Rmult_1_r in H; lra.
    - apply (Rmult_lt_reg_r (sqrt (Qc2R m))); auto. rewrite Rmult_assoc, Rinv_l, Rmult_1_r; lra. }
  rewrite D. clear D. set (s := sqrt (Qc2R m)) in *. clearbody s.
  assert (Sq2 : forall u v, (0 <= u -> 0 <= v -> (u * u < v * v <-> u < v))%R).
  { intros u v Hu Hv. split; intros H; [destruct (Rle_lt_dec v u); auto; exfalso|]; nra. }
  dltb c 0.
  - rewrite orb_true_iff, leb_spec, ltb_spec, Qc2R_le, Qc2R_lt, !Qc2R_mul, Qc2R_0.
    apply Qc2R_lt in E. rewrite Qc2R_0 in E.
    assert (Cs : (0 < - Qc2R c * s)%R) by nra.
    destruct (Rle_lt_dec 0 (Qc2R a)) as [A|A].
    + split; [intros _; lra|auto].
    + specialize (Sq2 (- Qc2R a)%R (- Qc2R c * s)%R ltac:(lra) ltac:(lra)).
      replace (- Qc2R a * - Qc2R a)%R with (Qc2R a * Qc2R a)%R in Sq2 by ring.
      replace (- Qc2R c * s * (- Qc2R c * s))%R with (Qc2R c * Qc2R c * Qc2R m)%R in Sq2 by (rewrite <- Sq; ring).
      rewrite Sq2. split; [intros [H|H]; lra|intros H; right; lra].
  - rewrite andb_true_iff, !ltb_spec, !Qc2R_lt, !Qc2R_mul, Qc2R_0.
    apply Qc2R_le in E. rewrite Qc2R_0 in E.
    assert (Cs : (0 <= Qc2R c * s)%R) by nra.
    destruct (Rlt_le_dec 0 (Qc2R a)) as [A|A]; [|split; [intros [H _]; lra|intros H; lra]].
    specialize (Sq2 (Qc2R c * s)%R (Qc2R a) Cs ltac:(lra)).
    replace (Qc2R c * s * (Qc2R c * s))%R with (Qc2R c * Qc2R c * Qc2R m)%R in Sq2 by (rewrite <- Sq; ring).
    rewrite Sq2. tauto. Qed.

(** C19: when the derivative cutoff counts as exceeded *)
Lemma fprime_meaning n c sim v b : is_simplex n sim -> fprime_exceeded (Some c) sim v = Ok b ->
  exists m, longest_edge_sq sim m /\
    (v = PInf -> b = true) /\ (v = NInf \/ v = NaN -> b = false) /\
    (forall a, v = Fin a -> 0 < m -> (b = true <-> (Qc2R a / sqrt (Qc2R m) > Qc2R c)%R)).
Proof. intros (N & L & _) E. unfold fprime_exceeded in E.
  assert (P : pairs sim <> []) by (destruct sim as [|x [|y s]]; cbn in *; try lia; discriminate).
  exists (np_max_q (map edge_sq (pairs sim))). split; [apply pairs_longest; auto|].
  destruct (pairs sim) as [|e es]; [congruence|]. injection E as <-. repeat split.
  - intros ->. reflexivity.
  - intros [->| ->]; reflexivity.
  - subst v. apply quot_gt_spec; auto.
  - subst v. apply quot_gt_spec; auto. Qed.

(** C23 *)
Lemma run_translate argsort func func' n t p initial : argsort_ok argsort -> length t = n -> is_simplex n initial ->
  (forall k x, length x = n -> func' k (vadd x t) = func k x) ->
  match root_nelder_mead argsort func p initial with
  | Err e => root_nelder_mead argsort func' p (map (fun x => vadd x t) initial) = Err e
  | Ok (r, w) => exists r' w', root_nelder_mead argsort func' p (map (fun x => vadd x t) initial) = Ok (r', w') /\
      r_pos r' = vadd (r_pos r) t /\ r_value r' = r_value r /\ r_success r' = r_success r /\ r_status r' = r_status r /\
      r_num_fev r' = r_num_fev r /\ r_num_iter r' = r_num_iter r /\
      r_simplex_history r' = map (map (fun x => vadd x t)) (r_simplex_history r) /\ r_fun_history r' = r_fun_history r /\
      w_log w' = map (fun xv => (vadd (fst xv) t, snd xv)) (w_log w)
  end.
Proof. intros Hs Ht Hi Hf. pose proof (root_tr argsort func func' n t Ht Hf Hs p initial Hi) as E.
  change (map (fun x => vadd x t) initial) with (map (tr t) initial).
  destruct (root_nelder_mead argsort func p initial) as [[r w]|e]; cbn in E; [|exact E].
  eexists _, _. split; [exact E|]. cbn. repeat split; auto. Qed.

Lemma run_lattice argsort func cs t p initial r w : argsort_ok argsort -> periodic cs = true -> wf_box cs ->
  is_simplex (dim cs) initial -> lattice_eq cs (repeat 0 (dim cs)) t ->
  (forall k x y, lattice_eq cs x y -> func k x = func k y) ->
  root_nelder_mead argsort func p initial = Ok (r, w) ->
  exists r' w', root_nelder_mead argsort func p (map (fun x => vadd x t) initial) = Ok (r', w') /\
    normalize_position cs (r_pos r') = normalize_position cs (r_pos r) /\ r_value r' = r_value r /\
    r_status r' = r_status r.
Proof. intros Hs Hp Hw Hi [ks Hk] Hper E. destruct (shifted_length _ _ _ _ Hk) as (L1 & L2 & L3).
  assert (Lt : length t = dim cs) by (unfold dim; congruence).
  assert (A : forall x, length x = dim cs -> lattice_eq cs x (vadd x t)).
  { intros x Lx. exists ks. unfold dim in *. clear -Hk Lx. revert ks t x Hk Lx.
    generalize (limits cs). unfold vadd. induction l as [|lh ls IH]; intros ks t x Hk Lx; cbn in *.
    - inversion Hk; subst. destruct x; [constructor|discriminate].
    - inversion Hk; subst. destruct x as [|a x]; [discriminate|]. cbn. replace (a + (0 + qc k * (hi - lo))) with (a + qc k * (hi - lo)) by ring.
      constructor. apply IH; auto. }
  pose proof (run_translate argsort func func (dim cs) t p initial Hs Lt Hi) as T. rewrite E in T.
  destruct T as (r' & w' & E' & Hpos & Hv & _ & Hst & _); [intros k x Lx; symmetry; apply Hper, A; auto|].
  exists r', w'. split; auto. split; auto. rewrite Hpos. symmetry. apply normalize_lattice_inv; auto. apply A.
  destruct (run_final _ _ _ _ _ Hs Hi _ _ E) as (sim & fsim & h & _ & (_ & Ls & F) & _ & _ & <- & _).
  rewrite Forall_forall in F. apply F. apply hd_in. destruct sim; [discriminate|congruence]. Qed.

(** C22, complete description *)
Lemma two_step_description argsort func fk p n initial r ow w : argsort_ok argsort -> is_simplex n initial ->
  run_minimization argsort func (Some fk) p initial = Ok (r, ow, w) ->
  exists first w1 second final h,
    root_nelder_mead argsort (fun k x => let! v := func k x in let! u := fk k x in Ok (fadd v u))
      {| p_xtol := p_xtol p; p_ftol := PInf; p_maxiter := p_maxiter p; p_maxfev := p_maxfev p;
         p_fprime := p_fprime p; p_keep := p_keep p |} initial = Ok (first, w1) /\
    ow = Some w1 /\
    r_simplex_history first = h ++ [final] /\ hd [] final = r_pos first /\
    root_nelder_mead argsort (fun k x => func (length (w_log w1) + k)%nat x) p
      (map (fun x => vadd (r_pos first) (vscale (Q2Qc (3 # 2)) (vsub x (r_pos first)))) final) = Ok (second, w) /\
    pos_of r = r_pos second /\ value_of r = r_value second /\ success_of r = r_success second /\
    status_of r = r_status second /\
    num_fev_of r = (length (w_log w1) + length (w_log w))%nat /\ num_iter_of r = (r_num_iter first + r_num_iter second)%nat /\
    simplex_history_of r = r_simplex_history first ++ r_simplex_history second /\
    (forall fh1 fh2, r_fun_history first = Some fh1 -> r_fun_history second = Some fh2 -> fun_history_of r = Ok (fh1 ++ fh2)).
Proof. intros Hs Hi E. destruct (two_step _ _ _ _ _ _ Hs Hi _ _ _ E) as (r1 & w1 & r2 & sim & h & -> & -> & E1 & Hh & Si & Hp & E2).
  exists r1, w1, r2, sim, h. split; [exact E1|]. split; auto. split; auto.
  assert (Hp' : hd [] sim = r_pos r1).
  { rewrite <- Hp. symmetry. apply blow_up_hd. destruct Si as (_ & L & _). destruct sim; [discriminate|congruence]. }
  split; auto.
  destruct (run_log _ _ _ _ _ Hs Hi _ _ E1) as [N1 _]. destruct (run_log _ _ _ _ _ Hs Si _ _ E2) as [N2 _].
  assert (W1 : w_calls w1 = length (w_log w1)).
  { destruct (root_spec _ Hs _ _ _ _ _ _ _ (preserved_True n) Hi I E1) as (s & Inv & _ & W & _ & _ & _ & R & _). rewrite <- N1, R. auto. }
  split; [unfold blow_up in E2; rewrite Hp' in E2; unfold later in E2; rewrite W1 in E2; exact E2|].
  cbn. rewrite N1, N2. repeat split; auto. intros fh1 fh2 -> ->. auto. Qed.

(** ** Concrete runs *)
Definition nm_par (mi mf : nat) (fp : option Qc) : nm_params :=
  {| p_xtol := Q2Qc (1 # 4); p_ftol := Fin 1; p_maxiter := Some mi; p_maxfev := Some mf; p_fprime := fp; p_keep := true |}.

(** a convergent run: f x = x^2 in one dimension *)
Definition ex_f (x : point) : fval := match x with [a] => Fin (a * a) | _ => NaN end.
Definition ex_init : list point := [[qc 3]; [qc 4]].
Lemma ex_run : exists r w, root_nelder_mead stable_argsort (fun _ x => Ok (ex_f x)) (nm_par 30 60 None) ex_init = Ok (r, w) /\
  r_success r = true /\ r_pos r = [qc 0] /\ (2 < r_num_iter r)%nat /\ forallb (fun xv => match snd xv with NaN => false | _ => true end) (w_log w) = true.
Proof. eexists _, _. split; [vm_compute; reflexivity|]. split; [reflexivity|]. split.
  - cbn [r_pos]. f_equal. apply Qc_is_canon. reflexivity.
  - split; [cbn; lia|vm_compute; reflexivity]. Qed.

(** With a NaN value in the worst vertex a strictly better evaluation (0, at
    the inside contraction point) is thrown away. *)
Definition nan_f (k : nat) (_ : point) : fval :=
  match k with 0 => Fin 1 | 1 => Fin (qc 2) | 2 => NaN | 3 => Fin (qc 5) | 4 => Fin 0 | _ => Fin (qc 3) end%nat.
Definition tri : list point := [[qc 0; qc 0]; [qc 1; qc 0]; [qc 0; qc 1]].
Lemma nan_discards : exists r w,
  root_nelder_mead stable_argsort (fun k x => Ok (nan_f k x)) (nm_par 2 60 None) tri = Ok (r, w) /\
  r_value r = Fin 1 /\ In (Fin 0) (map snd (w_log w)).
Proof. eexists _, _. split; [vm_compute; reflexivity|]. split; [cbn; f_equal; apply Qc_is_canon; reflexivity|].
  cbn. do 4 right. left. f_equal. Qed.

(** A run aborted by the derivative cutoff is reported as converged if one of
    the values is NaN. *)
Definition nan_g (k : nat) (_ : point) : fval := match k with O => Fin 1 | _ => NaN end.
Definition seg : list point := [[qc 0]; [qc 1]].
Lemma nan_success : exists r w,
  root_nelder_mead stable_argsort (fun k x => Ok (nan_g k x)) (nm_par 30 60 (Some half)) seg = Ok (r, w) /\
  r_success r = true /\ w_calls w = 2%nat /\
  converged (nm_par 30 60 (Some half)) (last (r_simplex_history r) []) [Fin 1; NaN] = Ok false.
Proof. eexists _, _. split; [vm_compute; reflexivity|]. repeat split. Qed.

(** The evaluation budget can be exceeded: maxfev = 3, five evaluations. *)
Definition over_f (k : nat) (_ : point) : fval := match k with 0 | 1 => Fin (qc (Z.of_nat k)) | _ => Fin (qc 5) end%nat.
Lemma budget_exceeded : exists r w,
  root_nelder_mead stable_argsort (fun k x => Ok (over_f k x)) (nm_par 30 3 None) seg = Ok (r, w) /\ r_num_fev r = 5%nat.
Proof. eexists _, _. split; [vm_compute; reflexivity|]. reflexivity. Qed.
