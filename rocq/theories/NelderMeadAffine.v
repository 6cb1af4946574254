(** Affine independence is preserved by every move (C24) and the algorithm
    commutes with translations (C23). *)
From Verif Require Import Base BaseFacts CoordSys Values NelderMead SpecMin NelderMeadFacts NelderMeadProps AverageFacts.
Open Scope Qc_scope.

(** ** Linear combinations, one coordinate at a time *)
Definition comb (g : point -> Qc) (cs : list Qc) (ps : list point) : Qc := qsum (map2 (fun c p => c * g p) cs ps).

Lemma qsum_app l m : qsum (l ++ m) = qsum l + qsum m.
Proof. unfold qsum. induction l as [|x l IH]; cbn; [ring|]. rewrite IH. ring. Qed.
Lemma comb_app g cs cs' ps ps' : length cs = length ps -> comb g (cs ++ cs') (ps ++ ps') = comb g cs ps + comb g cs' ps'.
Proof. unfold comb, qsum. revert ps. induction cs as [|c cs IH]; intros [|p ps] L; cbn in *; try discriminate; [ring|].
  rewrite IH by lia. ring. Qed.
Lemma comb_shift g d cs ps : length cs = length ps ->
  comb g (map (fun c => c + d) cs) ps = comb g cs ps + d * qsum (map g ps).
Proof. unfold comb, qsum. revert ps. induction cs as [|c cs IH]; intros [|p ps] L; cbn in *; try discriminate; [ring|].
  rewrite IH by lia. ring. Qed.
Lemma comb_scale g s cs ps : length cs = length ps -> comb g (map (fun c => s * c) cs) ps = s * comb g cs ps.
Proof. unfold comb, qsum. revert ps. induction cs as [|c cs IH]; intros [|p ps] L; cbn in *; try discriminate; [ring|].
  rewrite IH by lia. ring. Qed.
Lemma qsum_shift d cs : qsum (map (fun c => c + d) cs) = qsum cs + d * qc (Z.of_nat (length cs)).
Proof. induction cs as [|c cs IH]; [cbn [length Z.of_nat map qsum fold_right]; rewrite qc_0; ring|]. cbn [map qsum length fold_right].
  change (fold_right Qcplus 0 (map (fun c => c + d) cs)) with (qsum (map (fun c => c + d) cs)).
  change (fold_right Qcplus 0 cs) with (qsum cs). rewrite IH, Nat2Z.inj_succ. unfold Z.succ. rewrite qc_add, qc_1. ring. Qed.
Lemma qsum_scale s cs : qsum (map (fun c => s * c) cs) = s * qsum cs.
Proof. unfold qsum. induction cs as [|c cs IH]; cbn; [ring|]. rewrite IH. ring. Qed.

Lemma aff_comb n ps : aff_indep n ps <-> (forall cs, length cs = length ps -> qsum cs = 0 ->
  (forall i, (i < n)%nat -> comb (fun p => nth i p 0) cs ps = 0) -> Forall (fun c => c = 0) cs).
Proof. reflexivity. Qed.

(** coordinates of a proposed point *)
Lemma nth_vscale c v i : nth i (vscale c v) 0 = c * nth i v 0.
Proof. unfold vscale. rewrite <- (map_nth (Qcmult c) v 0 i). replace (c * 0) with 0 by ring. reflexivity. Qed.
Lemma nth_centroid n ps i : Forall (fun p => length p = n) ps -> (i < n)%nat ->
  nth i (centroid n ps) 0 = qsum (map (fun p => nth i p 0) ps) / qc (Z.of_nat n).
Proof. intros F Hi. unfold centroid. rewrite (nth_map_lt _ _ i 0 0); [|rewrite vsum_length; auto]. rewrite vsum_nth; auto. Qed.
Lemma nth_proposal n sim a i : is_simplex n sim -> (i < n)%nat ->
  nth i (proposal n sim a) 0 =
  (1 + a) * (qsum (map (fun p => nth i p 0) (removelast sim)) / qc (Z.of_nat n)) - a * nth i (last sim []) 0.
Proof. intros (N & L & F) Hi. unfold proposal, vsub.
  assert (Fr : Forall (fun p => length p = n) (removelast sim)) by (apply Forall_removelast; auto).
  assert (Ll : length (last sim []) = n). { apply (Forall_last (fun x => length x = n)); auto. destruct sim; [discriminate|congruence]. }
  rewrite (nth_map2 _ _ _ i 0 0 0); unfold vscale; rewrite ?map_length, ?centroid_length; auto; try lia.
  change (map (Qcmult (1 + a)) (centroid n (removelast sim))) with (vscale (1 + a) (centroid n (removelast sim))).
  change (map (Qcmult a) (last sim [])) with (vscale a (last sim [])).
  rewrite !nth_vscale, nth_centroid; auto. Qed.

Lemma Forall_zero_app l m : Forall (fun c : Qc => c = 0) (l ++ m) -> Forall (fun c => c = 0) l /\ Forall (fun c => c = 0) m.
Proof. apply Forall_app. Qed.

Lemma list_snoc {A} (l : list A) k : length l = S k -> exists l' a, l = l' ++ [a] /\ length l' = k.
Proof. intros H. destruct (exists_last (l := l)) as (l' & a & E); [destruct l; [discriminate|congruence]|].
  exists l', a. split; auto. subst. rewrite app_length in H. cbn in H. lia. Qed.

Lemma aff_replace n s a : is_simplex n s -> a <> 0 -> aff_indep n s -> aff_indep n (set_last s (proposal n s a)).
Proof. intros Hs Ha A cs L S0 HC. pose proof Hs as (N & Ls & F).
  destruct (list_snoc s n Ls) as (ps & w & Es & Lp).
  assert (Er : removelast s = ps) by (rewrite Es; apply removelast_last).
  assert (El : last s [] = w) by (rewrite Es; apply last_last).
  unfold set_last in *. rewrite Er in *. rewrite app_length in L. cbn in L.
  destruct (list_snoc cs n ltac:(lia)) as (cs1 & d & -> & Lc). clear L.
  set (k := d * (1 + a) / qc (Z.of_nat n)).
  assert (Nz : qc (Z.of_nat n) <> 0). { apply pos_neq0. apply qc_pos. lia. }
  assert (Q : Forall (fun c => c = 0) (map (fun c => c + k) cs1 ++ [- (d * a)])).
  { apply A; [rewrite Es, !app_length, map_length; cbn; lia| |].
    - rewrite qsum_app, qsum_shift. rewrite qsum_app in S0. cbn [qsum fold_right] in *.
      rewrite Lc. unfold k. replace (d * (1 + a) / qc (Z.of_nat n) * qc (Z.of_nat n)) with (d * (1 + a)) by (field; auto).
      transitivity (qsum cs1 + (d + 0)); [ring|exact S0].
    - intros i Hi. specialize (HC i Hi). change (comb (fun p => nth i p 0) (map (fun c => c + k) cs1 ++ [- (d * a)]) s = 0).
      change (comb (fun p => nth i p 0) (cs1 ++ [d]) (ps ++ [proposal n s a]) = 0) in HC.
      rewrite comb_app in HC by lia. rewrite Es, comb_app by (rewrite map_length; lia). rewrite comb_shift by lia.
      etransitivity; [|exact HC]. unfold comb at 2 4. cbn [map2 qsum fold_right].
      rewrite nth_proposal, Er, El by auto. unfold k. field. auto. }
  apply Forall_zero_app in Q as [Q1 Q2]. inversion Q2 as [|? ? Q3 _]; subst.
  assert (D0 : d = 0).
  { destruct (Qcmult_integral d a); auto; [|contradiction]. transitivity (- - (d * a)); [ring|]. rewrite Q3. ring. }
  apply Forall_app. split; [|auto]. subst d. rewrite Forall_forall in *. intros c Hc.
  specialize (Q1 (c + k) (in_map (fun c => c + k) cs1 c Hc)). unfold k in Q1. rewrite <- Q1. field. auto. Qed.

Lemma nth_shrink n x0 x i : length x0 = n -> length x = n -> (i < n)%nat ->
  nth i (vadd x0 (vscale sigma (vsub x x0))) 0 = nth i x0 0 + sigma * (nth i x 0 - nth i x0 0).
Proof. intros L0 L Hi. unfold vadd. rewrite (nth_map2 _ _ _ i 0 0 0); try lia.
  - rewrite nth_vscale. unfold vsub. rewrite (nth_map2 _ _ _ i 0 0 0); auto; lia.
  - unfold vscale, vsub. rewrite map_length, map2_length; lia. Qed.

Lemma comb_shrink n x0 i cs xs : length x0 = n -> Forall (fun x => length x = n) xs -> (i < n)%nat -> length cs = length xs ->
  comb (fun p => nth i p 0) cs (map (fun x => vadd x0 (vscale sigma (vsub x x0))) xs) =
  (1 - sigma) * qsum cs * nth i x0 0 + sigma * comb (fun p => nth i p 0) cs xs.
Proof. intros L0 F Hi. unfold comb, qsum. revert xs F. induction cs as [|c cs IH]; intros [|x xs] F L; cbn in *; try discriminate; [ring|].
  inversion F; subst. rewrite IH by (auto; lia). rewrite (nth_shrink (length x0)) by auto. ring. Qed.

Lemma aff_shrink n s : is_simplex n s -> aff_indep n s ->
  aff_indep n (hd [] s :: map (fun x => vadd (hd [] s) (vscale sigma (vsub x (hd [] s)))) (tl s)).
Proof. intros (N & L & F) A cs Lc S0 HC. destruct s as [|x0 xs]; [discriminate|]. cbn [hd tl] in *.
  destruct cs as [|c0 cs]; [discriminate|]. cbn in Lc. rewrite map_length in Lc. inversion F as [|? ? F0 Fs]; subst.
  assert (Q : Forall (fun c => c = 0) ((c0 + (1 - sigma) * qsum cs) :: map (fun c => sigma * c) cs)).
  { apply A; [cbn; rewrite map_length; lia| |].
    - cbn [qsum fold_right] in *. change (fold_right Qcplus 0 (map (fun c => sigma * c) cs)) with (qsum (map (fun c => sigma * c) cs)).
      change (fold_right Qcplus 0 cs) with (qsum cs) in S0. rewrite qsum_scale. rewrite <- S0. ring.
    - intros i Hi. specialize (HC i Hi).
      change (c0 * nth i x0 0 + comb (fun p => nth i p 0) cs (map (fun x => vadd x0 (vscale sigma (vsub x x0))) xs) = 0) in HC.
      change ((c0 + (1 - sigma) * qsum cs) * nth i x0 0 + comb (fun p => nth i p 0) (map (fun c => sigma * c) cs) xs = 0).
      rewrite (comb_shrink (length x0)) in HC by (auto; lia). rewrite comb_scale by lia. etransitivity; [|exact HC]. ring. }
  inversion Q as [|? ? Q0 Qs]; subst.
  assert (Z : Forall (fun c => c = 0) cs).
  { rewrite Forall_forall in *. intros c Hc. specialize (Qs (sigma * c) (in_map (fun c => sigma * c) cs c Hc)).
    destruct (Qcmult_integral sigma c Qs) as [H|H]; auto. discriminate. }
  constructor; auto. assert (Q' : qsum cs = 0).
  { clear -Z. unfold qsum. induction Z as [|c cs -> Z IH]; cbn; auto. rewrite IH. ring. }
  rewrite Q' in Q0. rewrite <- Q0. ring. Qed.

(** permutations *)
Lemma perm_coeffs (ps ps' : list point) : Permutation ps ps' -> forall cs : list Qc, length cs = length ps ->
  exists cs', length cs' = length ps' /\ Permutation (combine cs ps) (combine cs' ps').
Proof. induction 1 as [|x l l' P IH|x y l|l l' l'' P1 IH1 P2 IH2]; intros cs L.
  - exists []. split; auto. destruct cs; [auto|discriminate].
  - destruct cs as [|c cs]; [discriminate|]. destruct (IH cs) as (cs' & L' & P'); [cbn in L; lia|].
    exists (c :: cs'). cbn. split; [lia|auto].
  - destruct cs as [|c [|d cs]]; try discriminate. exists (d :: c :: cs). cbn in *. split; [lia|]. apply perm_swap.
  - destruct (IH1 cs L) as (cs1 & L1 & Q1). destruct (IH2 cs1 L1) as (cs2 & L2 & Q2). exists cs2. split; auto.
    eapply Permutation_trans; eauto. Qed.
Lemma qsum_perm l m : Permutation l m -> qsum l = qsum m.
Proof. unfold qsum. induction 1; cbn; try ring; congruence. Qed.
Lemma comb_combine g cs ps : comb g cs ps = qsum (map (fun cp => fst cp * g (snd cp)) (combine cs ps)).
Proof. unfold comb, qsum. revert ps. induction cs as [|c cs IH]; intros [|p ps]; cbn; auto. rewrite IH. reflexivity. Qed.
Lemma map_fst_combine {A B} (l : list A) (m : list B) : length l = length m -> map fst (combine l m) = l.
Proof. revert m. induction l as [|a l IH]; intros [|b m] L; cbn in *; try discriminate; auto. rewrite IH; auto. Qed.
Lemma aff_perm n s s' : Permutation s s' -> aff_indep n s -> aff_indep n s'.
Proof. intros P A cs L S0 HC. destruct (perm_coeffs _ _ (Permutation_sym P) cs L) as (cs' & L' & Q).
  assert (Pc : Permutation cs cs').
  { rewrite <- (map_fst_combine cs s' L), <- (map_fst_combine cs' s L'). apply Permutation_map; auto. }
  assert (Z : Forall (fun c => c = 0) cs').
  { apply A; auto.
    - rewrite <- (qsum_perm _ _ Pc). auto.
    - intros i Hi. specialize (HC i Hi). change (comb (fun p => nth i p 0) cs' s = 0).
      change (comb (fun p => nth i p 0) cs s' = 0) in HC. rewrite comb_combine in *.
      etransitivity; [|exact HC]. apply qsum_perm. apply Permutation_map. symmetry. auto. }
  rewrite Forall_forall in *. intros c Hc. apply Z. eapply Permutation_in; eauto. Qed.

Lemma preserved_aff n : preserved n (aff_indep n).
Proof. split; [intros s s' P; apply aff_perm; auto|]. split; [intros s a; apply aff_replace|apply aff_shrink]. Qed.

Lemma run_nondegenerate argsort func p n initial r w : argsort_ok argsort -> is_simplex n initial -> aff_indep n initial ->
  root_nelder_mead argsort func p initial = Ok (r, w) -> Forall (aff_indep n) (r_simplex_history r).
Proof. intros Hs Hi A E. destruct (root_spec _ Hs _ _ _ _ _ _ _ (preserved_aff n) Hi A E) as (s & Inv & X & W & B1 & B2 & St & R & _).
  destruct Inv as (_ & _ & _ & _ & _ & HF & _). rewrite R. exact HF. Qed.

(** blow-up keeps independence *)
Lemma nth_blow n x0 x c i : length x0 = n -> length x = n -> (i < n)%nat ->
  nth i (vadd x0 (vscale c (vsub x x0))) 0 = nth i x0 0 + c * (nth i x 0 - nth i x0 0).
Proof. intros L0 L Hi. unfold vadd. rewrite (nth_map2 _ _ _ i 0 0 0); try lia.
  - rewrite nth_vscale. unfold vsub. rewrite (nth_map2 _ _ _ i 0 0 0); auto; lia.
  - unfold vscale, vsub. rewrite map_length, map2_length; lia. Qed.
Lemma comb_blow n x0 c i cs xs : length x0 = n -> Forall (fun x => length x = n) xs -> (i < n)%nat -> length cs = length xs ->
  comb (fun p => nth i p 0) cs (map (fun x => vadd x0 (vscale c (vsub x x0))) xs) =
  (1 - c) * qsum cs * nth i x0 0 + c * comb (fun p => nth i p 0) cs xs.
Proof. intros L0 F Hi. unfold comb, qsum. revert xs F. induction cs as [|d cs IH]; intros [|x xs] F L; cbn in *; try discriminate; [ring|].
  inversion F; subst. rewrite IH by (auto; lia). rewrite (nth_blow (length x0)) by auto. ring. Qed.
Lemma aff_blow_up n s : is_simplex n s -> aff_indep n s -> aff_indep n (blow_up s).
Proof. intros (N & L & F) A cs Lc S0 HC. unfold blow_up in *. rewrite map_length in Lc.
  assert (L0 : length (hd [] s) = n) by (rewrite Forall_forall in F; apply F, hd_in; destruct s; [discriminate|congruence]).
  apply A; auto. intros i Hi. specialize (HC i Hi).
  change (comb (fun p => nth i p 0) cs (map (fun x => vadd (hd [] s) (vscale (Q2Qc (3 # 2)) (vsub x (hd [] s)))) s) = 0) in HC.
  change (comb (fun p => nth i p 0) cs s = 0). rewrite (comb_blow n) in HC by auto. rewrite S0 in HC.
  set (K := comb (fun p => nth i p 0) cs s) in *. clearbody K. qcq. lra. Qed.

(** ** Translations *)
Definition tr (t x : point) : point := vadd x t.
Definition tr_world (t : point) (w : world) : world :=
  {| w_calls := w_calls w; w_log := map (fun xv => (tr t (fst xv), snd xv)) (w_log w) |}.

Lemma hd_map_tr t s : hd [] (map (tr t) s) = tr t (hd [] s).
Proof. destruct s; reflexivity. Qed.
Lemma last_map_tr t s : last (map (tr t) s) [] = tr t (last s []).
Proof. induction s as [|x [|y s] IH]; cbn in *; auto. Qed.
Lemma removelast_map {A B} (f : A -> B) l : removelast (map f l) = map f (removelast l).
Proof. induction l as [|x [|y l] IH]; cbn in *; auto. rewrite IH. auto. Qed.
Lemma tl_map {A B} (f : A -> B) l : tl (map f l) = map f (tl l).
Proof. destruct l; auto. Qed.
Lemma take_map_tr t sim ind : take [] (map (tr t) sim) ind = map (tr t) (take [] sim ind).
Proof. unfold take. rewrite map_map. apply map_ext. intros i. change (@nil Qc) with (tr t []) at 1. apply map_nth. Qed.
Lemma set_last_map {A B} (f : A -> B) l x : set_last (map f l) (f x) = map f (set_last l x).
Proof. unfold set_last. rewrite removelast_map, map_app. auto. Qed.

Lemma vsub_tr t x y : length x = length t -> length y = length t -> vsub (tr t x) (tr t y) = vsub x y.
Proof. unfold tr, vsub, vadd. revert x y. induction t as [|c t IH]; intros [|a x] [|b y] L M; cbn in *; try discriminate; auto.
  f_equal; [ring|]. apply IH; lia. Qed.
Lemma aff_tr t a b x y : a - b = 1 -> length x = length t -> length y = length t ->
  vsub (vscale a (tr t x)) (vscale b (tr t y)) = tr t (vsub (vscale a x) (vscale b y)).
Proof. intros Hab. unfold tr, vsub, vadd, vscale. revert x y. induction t as [|c t IH]; intros [|u x] [|v y] L M; cbn in *; try discriminate; auto.
  f_equal; [|apply IH; lia]. transitivity (a * u - b * v + (a - b) * c); [ring|]. rewrite Hab. ring. Qed.
Lemma aff_tr' t a b x y : a + b = 1 -> length x = length t -> length y = length t ->
  vadd (vscale a (tr t x)) (vscale b (tr t y)) = tr t (vadd (vscale a x) (vscale b y)).
Proof. intros Hab. unfold tr, vsub, vadd, vscale. revert x y. induction t as [|c t IH]; intros [|u x] [|v y] L M; cbn in *; try discriminate; auto.
  f_equal; [|apply IH; lia]. transitivity (a * u + b * v + (a + b) * c); [ring|]. rewrite Hab. ring. Qed.
Lemma shrink_tr t c x0 x : length x0 = length t -> length x = length t ->
  vadd (tr t x0) (vscale c (vsub (tr t x) (tr t x0))) = tr t (vadd x0 (vscale c (vsub x x0))).
Proof. unfold tr, vsub, vadd, vscale. revert x0 x. induction t as [|d t IH]; intros [|u x] [|v y] L M; cbn in *; try discriminate; auto.
  f_equal; [ring|apply IH; lia]. Qed.
Lemma centroid_tr t n ps : (1 <= n)%nat -> length ps = n -> length t = n -> Forall (fun p => length p = n) ps ->
  centroid n (map (tr t) ps) = tr t (centroid n ps).
Proof. intros N L Lt F.
  assert (Lv : forall p, length p = n -> length (tr t p) = n) by (intros p Hp; unfold tr, vadd; rewrite map2_length; lia).
  assert (F' : Forall (fun p => length p = n) (map (tr t) ps)).
  { apply Forall_forall. intros q Hq. apply in_map_iff in Hq as (p & <- & Hp). rewrite Forall_forall in F. auto. }
  apply (nth_ext _ _ 0 0); [rewrite Lv; rewrite centroid_length; auto; rewrite centroid_length; auto|].
  intros i Hi. rewrite centroid_length in Hi by auto. rewrite nth_centroid by auto.
  unfold tr at 2, vadd. rewrite (nth_map2 _ _ _ i 0 0 0) by (rewrite ?centroid_length; auto; lia). rewrite nth_centroid by auto.
  assert (Nz : qc (Z.of_nat n) <> 0). { apply pos_neq0. apply qc_pos. lia. }
  assert (S : qsum (map (fun p => nth i p 0) (map (tr t) ps)) = qsum (map (fun p => nth i p 0) ps) + qc (Z.of_nat (length ps)) * nth i t 0).
  { clear -F Lt Hi. induction ps as [|p ps IH]; [cbn [length Z.of_nat map qsum fold_right]; rewrite qc_0; ring|]. inversion F; subst. cbn [map qsum fold_right length].
    change (fold_right Qcplus 0 ?l) with (qsum l). rewrite IH by auto. rewrite Nat2Z.inj_succ. unfold Z.succ. rewrite qc_add, qc_1.
    unfold tr at 1, vadd. rewrite (nth_map2 _ _ _ i 0 0 0) by lia. ring. }
  rewrite S, L. field. auto. Qed.

Section Tr.
  Variable argsort : list fval -> list nat.
  Variables (func func' : nat -> point -> res fval) (n : nat) (t : point).
  Hypothesis Ht : length t = n.
  Hypothesis Hf : forall k x, length x = n -> func' k (tr t x) = func k x.

  Lemma call_tr w x : length x = n ->
    call func' (tr_world t w) (tr t x) = rmap (fun wv => (tr_world t (fst wv), snd wv)) (call func w x).
  Proof. intros L. unfold call. cbn [tr_world w_calls w_log]. rewrite Hf by auto. destruct (func _ x) as [v|]; cbn; auto.
    unfold tr_world. cbn. rewrite map_app. auto. Qed.

  Lemma call_all_tr xs : Forall (fun x => length x = n) xs -> forall w,
    call_all func' (tr_world t w) (map (tr t) xs) = rmap (fun wv => (tr_world t (fst wv), snd wv)) (call_all func w xs).
  Proof. induction 1 as [|x xs L F IH]; intros w; cbn [call_all map]; [reflexivity|]. rewrite call_tr by auto.
    destruct (call func w x) as [[w1 v]|]; cbn [bind rmap fst snd]; [|reflexivity]. rewrite IH.
    destruct (call_all func w1 xs) as [[w2 vs]|]; reflexivity. Qed.

  Lemma shrink_loop_tr x0 xs : length x0 = n -> Forall (fun x => length x = n) xs -> forall w,
    shrink_loop func' (tr t x0) (tr_world t w) (map (tr t) xs) =
    rmap (fun r => let '(w, ys, vs) := r in (tr_world t w, map (tr t) ys, vs)) (shrink_loop func x0 w xs).
  Proof. intros L0. induction 1 as [|x xs L F IH]; intros w; cbn [shrink_loop map]; [reflexivity|].
    rewrite shrink_tr by lia. rewrite call_tr by (apply vlen_shrink; auto).
    destruct (call func w _) as [[w1 v]|]; cbn [bind rmap fst snd]; [|reflexivity]. rewrite IH.
    destruct (shrink_loop func x0 w1 xs) as [[[w2 ys] vs]|]; reflexivity. Qed.

  Lemma nm_move_tr sim fsim w : is_simplex n sim ->
    nm_move func' n (map (tr t) sim) fsim (tr_world t w) =
    rmap (fun r => let '(sim, fsim, w) := r in (map (tr t) sim, fsim, tr_world t w)) (nm_move func n sim fsim w).
  Proof. intros Hs. pose proof Hs as (N & L & F).
    assert (Fr : Forall (fun p => length p = n) (removelast sim)) by (apply Forall_removelast; auto).
    assert (Hne : sim <> []) by (destruct sim; [discriminate|congruence]).
    assert (Ll : length (last sim []) = n) by (apply (Forall_last (fun x => length x = n)); auto).
    assert (Lc : length (centroid n (removelast sim)) = n) by (apply centroid_length; auto).
    assert (Lh : length (hd [] sim) = n) by (rewrite Forall_forall in F; apply F, hd_in; auto).
    assert (Lp : forall a b x y, length x = n -> length y = n -> length (vsub (vscale a x) (vscale b y)) = n).
    { intros. unfold vsub, vscale. rewrite map2_length; rewrite !map_length; lia. }
    assert (Lp' : forall a b x y, length x = n -> length y = n -> length (vadd (vscale a x) (vscale b y)) = n).
    { intros. unfold vadd, vscale. rewrite map2_length; rewrite !map_length; lia. }
    unfold nm_move. rewrite removelast_map, last_map_tr, centroid_tr by (auto; rewrite removelast_length; lia).
    set (xb := centroid n (removelast sim)) in *. set (xw := last sim []) in *.
    rewrite !(aff_tr t) by (try lia; ring). rewrite (aff_tr' t) by (try lia; ring).
    rewrite call_tr by auto. destruct (call func w _) as [[w1 fxr]|]; cbn [bind rmap fst snd]; [|reflexivity].
    destruct (flt fxr (hd NaN fsim)).
    - rewrite call_tr by auto. destruct (call func w1 _) as [[w2 fxe]|]; cbn [bind rmap fst snd]; [|reflexivity].
      destruct (flt fxe fxr); cbn [rmap]; rewrite set_last_map; reflexivity.
    - destruct (flt fxr (last (removelast fsim) NaN)); [cbn [rmap]; rewrite set_last_map; reflexivity|].
      destruct (flt fxr (last fsim NaN)).
      + rewrite call_tr by auto. destruct (call func w1 _) as [[w2 fxc]|]; cbn [bind rmap fst snd]; [|reflexivity].
        destruct (fle fxc fxr); cbn [bind rmap]; [rewrite set_last_map; reflexivity|].
        rewrite hd_map_tr, tl_map, shrink_loop_tr; auto; [|destruct sim; [constructor|inversion F; auto]].
        destruct (shrink_loop _ _ _ _) as [[[w3 ys] vs]|]; reflexivity.
      + rewrite call_tr by auto. destruct (call func w1 _) as [[w2 fxc]|]; cbn [bind rmap fst snd]; [|reflexivity].
        destruct (flt fxc (last fsim NaN)); cbn [bind rmap]; [rewrite set_last_map; reflexivity|].
        rewrite hd_map_tr, tl_map, shrink_loop_tr; auto; [|destruct sim; [constructor|inversion F; auto]].
        destruct (shrink_loop _ _ _ _) as [[[w3 ys] vs]|]; reflexivity. Qed.

  Definition tr_state (s : nm_state) : nm_state :=
    {| s_sim := map (tr t) (s_sim s); s_fsim := s_fsim s; s_world := tr_world t (s_world s); s_iter := s_iter s;
       s_hist := map (map (tr t)) (s_hist s); s_fhist := s_fhist s |}.

  Lemma pairs_map_tr sim c v : Forall (fun x => length x = n) sim ->
    fprime_exceeded c (map (tr t) sim) v = fprime_exceeded c sim v.
  Proof. intros F. unfold fprime_exceeded. destruct c as [c|]; [|auto].
    assert (P : pairs (map (tr t) sim) = map (fun pq => (tr t (fst pq), tr t (snd pq))) (pairs sim)).
    { clear. induction sim as [|x sim IH]; cbn; auto. rewrite map_app, IH, !map_map. auto. }
    assert (Q : map edge_sq (pairs (map (tr t) sim)) = map edge_sq (pairs sim)).
    { rewrite P, map_map. apply map_ext_in. intros [x y] H. unfold edge_sq. cbn [fst snd].
      assert (G : length x = n /\ length y = n).
      { clear -F H. induction F as [|a l La F IH]; cbn in H; [destruct H|]. apply in_app_iff in H as [H|H]; auto.
        apply in_map_iff in H as (z & Q & Hz). injection Q as -> ->. rewrite Forall_forall in F. auto. }
      rewrite vsub_tr by lia. auto. }
    rewrite P in *. destruct (pairs sim) as [|e es]; [reflexivity|]. cbn [map] in *. rewrite Q. reflexivity. Qed.

  Lemma converged_tr p sim fsim : Forall (fun x => length x = n) sim ->
    converged p (map (tr t) sim) fsim = converged p sim fsim.
  Proof. intros F. unfold converged. destruct sim as [|x0 [|x1 xs]]; auto. cbn [map tl hd].
    inversion F as [|? ? F0 Fs]; subst.
    assert (Q : map (fun x => vsub x (tr t x0)) (map (tr t) (x1 :: xs)) = map (fun x => vsub x x0) (x1 :: xs)).
    { rewrite map_map. apply map_ext_in. intros x Hx. rewrite Forall_forall in Fs. apply vsub_tr; [rewrite Fs|]; auto. }
    cbn [map] in *. rewrite Q. reflexivity. Qed.

  Hypothesis Hsort : argsort_ok argsort.

  Lemma loop_tr P fuel : preserved n P -> forall mf mi p s, nm_inv func (p_keep p) n P s ->
    nm_loop argsort func' fuel n mf mi p (tr_state s) = rmap tr_state (nm_loop argsort func fuel n mf mi p s).
  Proof. intros HP. induction fuel as [|fuel IH]; intros mf mi p s Inv; cbn [nm_loop].
    - cbn [tr_state s_world s_iter tr_world w_calls]. destruct (_ && _)%bool; reflexivity.
    - cbn [tr_state s_world s_iter tr_world w_calls s_sim s_fsim]. destruct (_ && _)%bool; [|reflexivity].
      assert (Hs : is_simplex n (s_sim s)) by apply Inv. pose proof Hs as (_ & _ & F).
      rewrite pairs_map_tr by auto. destruct (fprime_exceeded _ _ _) as [b|]; cbn [bind rmap]; [|reflexivity].
      destruct b; [reflexivity|]. rewrite converged_tr by auto.
      destruct (converged _ _ _) as [b|]; cbn [bind rmap]; [|reflexivity]. destruct b; [reflexivity|].
      change {| w_calls := w_calls (s_world s); w_log := map (fun xv => (tr t (fst xv), snd xv)) (w_log (s_world s)) |}
        with (tr_world t (s_world s)).
      rewrite nm_move_tr by auto. destruct (nm_move func n (s_sim s) (s_fsim s) (s_world s)) as [[[s1 f1] w1]|] eqn:Em; cbn [bind rmap]; [|reflexivity].
      destruct (sort_simplex argsort s1 f1) as [s2 f2] eqn:Es.
      assert (Es' : sort_simplex argsort (map (tr t) s1) f1 = (map (tr t) s2, f2)).
      { unfold sort_simplex in *. injection Es as <- <-. rewrite take_map_tr. auto. }
      rewrite Es'. destruct (inv_step _ Hsort _ _ _ _ _ _ _ _ _ _ HP Inv Em Es) as [I2 _].
      rewrite <- IH by exact I2. f_equal. unfold tr_state. cbn. f_equal.
      destruct (p_keep p); cbn; rewrite ?map_app; reflexivity. Qed.

  Definition tr_result (r : min_result) : min_result :=
    {| r_pos := tr t (r_pos r); r_value := r_value r; r_success := r_success r; r_status := r_status r;
       r_num_fev := r_num_fev r; r_num_iter := r_num_iter r;
       r_simplex_history := map (map (tr t)) (r_simplex_history r); r_fun_history := r_fun_history r |}.

  Lemma well_shaped_tr sim : Forall (fun x => length x = n) sim -> well_shaped n (map (tr t) sim) = well_shaped n sim.
  Proof. intros F. unfold well_shaped. rewrite map_length. f_equal. induction F as [|x sim L F IH]; cbn; auto.
    rewrite IH. f_equal. unfold tr, vadd. rewrite map2_length by lia. auto. Qed.

  Lemma root_tr p initial : is_simplex n initial ->
    root_nelder_mead argsort func' p (map (tr t) initial) =
    rmap (fun rw => (tr_result (fst rw), tr_world t (snd rw))) (root_nelder_mead argsort func p initial).
  Proof. intros Hi. pose proof Hi as (N & L & F). unfold root_nelder_mead.
    destruct initial as [|x0 xs] eqn:Ein; [discriminate|]. cbn [map].
    assert (L0 : length x0 = n) by (inversion F; auto). assert (L0' : length (tr t x0) = n) by (unfold tr, vadd; rewrite map2_length; lia).
    rewrite L0, L0'. change (tr t x0 :: map (tr t) xs) with (map (tr t) (x0 :: xs)). rewrite <- Ein in *.
    rewrite well_shaped_tr by auto. destruct (negb _); [reflexivity|].
    change {| w_calls := 0; w_log := [] |} with (tr_world t {| w_calls := 0; w_log := [] |}) at 1.
    rewrite call_all_tr by auto. destruct (call_all func _ initial) as [[w f0]|] eqn:C; cbn [bind rmap fst snd]; [|reflexivity].
    destruct (sort_simplex argsort initial f0) as [sim fsim] eqn:Es.
    assert (Es' : sort_simplex argsort (map (tr t) initial) f0 = (map (tr t) sim, fsim)).
    { unfold sort_simplex in *. injection Es as <- <-. rewrite take_map_tr. auto. }
    rewrite Es'.
    destruct (init_inv _ Hsort _ n _ initial w f0 sim fsim (p_keep p) (preserved_True n) Hi I C Es) as [I0 _].
    match goal with |- context [nm_loop argsort func' ?f n ?mf ?mi p ?s'] =>
      match type of I0 with nm_inv _ _ _ _ ?s => change s' with (tr_state s); rewrite (loop_tr (fun _ => True) f (preserved_True n) mf mi p s I0) end end.
    destruct (nm_loop argsort func _ _ _ _ _ _) as [s|] eqn:El; cbn [bind rmap]; [|reflexivity].
    destruct (loop_spec _ Hsort _ _ _ _ _ _ _ _ _ (preserved_True n) I0 El) as (I2 & _).
    assert (Hs : is_simplex n (s_sim s)) by apply I2. pose proof Hs as (_ & _ & Fs).
    unfold nm_status. cbn [tr_state s_world s_iter s_sim s_fsim tr_world w_calls]. rewrite pairs_map_tr by auto.
    destruct (_ <=? _)%nat; [cbn; rewrite hd_map_tr; reflexivity|]. destruct (_ <=? _)%nat; [cbn; rewrite hd_map_tr; reflexivity|].
    destruct (fprime_exceeded _ _ _) as [b|]; cbn [bind rmap]; [|reflexivity].
    destruct b; cbn; rewrite hd_map_tr; reflexivity. Qed.
End Tr.
