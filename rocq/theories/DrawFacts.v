(** Facts about drawing tuples of neighbours. *)
From Verif Require Import Base BaseFacts CoordSys SpecGeom CoordSysFacts GeomCombined CoordSysR CellListFacts Queue QueueFacts Graph SpecGraph GraphFacts Dimension SpecDim.
From Coq Require Import Reals Sorted.
Open Scope list_scope.
Open Scope nat_scope.

Lemma sorted_strong (l : tuple) : sorted (lex_leb ltb) l <-> StronglySorted lex_le l.
Proof. split; induction 1; constructor; auto. Qed.
Lemma sort_tuple_perm t : Permutation (sort_tuple t) t.
Proof. apply sort_perm. Qed.
Lemma sort_tuple_sorted t : StronglySorted lex_le (sort_tuple t).
Proof. apply sorted_strong, sort_sorted; [apply lex_total|apply lex_trans]. Qed.
Lemma sort_tuple_canonical t u : Permutation t u -> sort_tuple t = sort_tuple u.
Proof. apply sort_canonical; [apply lex_total|apply lex_trans|apply lex_antisym]. Qed.
Lemma sort_tuple_id t : StronglySorted lex_le t -> sort_tuple t = t.
Proof. intros S. eapply (@sorted_unique _ (lex_leb ltb)); [apply lex_total|apply lex_antisym| |apply sorted_strong; auto|apply sort_tuple_perm].
  apply sort_sorted; [apply lex_total|apply lex_trans]. Qed.

Lemma sample_perm l k t u : Permutation t u -> sample_of l k t -> sample_of l k u.
Proof. intros P (N & I & L). split; [eapply Permutation_NoDup; eauto|]. split; [|rewrite <- L; symmetry; apply Permutation_length; auto].
  intros x Ix. apply I. eapply Permutation_in; [apply Permutation_sym; exact P|auto]. Qed.
Lemma sample_sorted l k t : sample_of l k t -> combination l k (sort_tuple t).
Proof. intros S. split; [eapply sample_perm; [apply Permutation_sym, sort_tuple_perm|exact S]|apply sort_tuple_sorted]. Qed.

(** ** combinations *)
Lemma combinations_0 {A} (l : list A) : combinations 0 l = [[]].
Proof. destruct l; reflexivity. Qed.
Lemma combinations_length {A} (l : list A) : forall k, length (combinations k l) = binom (length l) k.
Proof. induction l as [|x l IH]; intros [|k]; cbn; auto. rewrite app_length, map_length, !IH. reflexivity. Qed.
Lemma combinations_in (l : list point) : forall k t, In t (combinations k l) -> incl t l /\ length t = k.
Proof. induction l as [|x l IH]; intros [|k] t; cbn; try (intros [<-|[]]; split; auto; intros y []); [intros []|].
  rewrite in_app_iff, in_map_iff. intros [(t' & <- & I)|I].
  - destruct (IH _ _ I) as (I1 & I2). cbn. split; [|lia]. intros y [<-|Y]; [left; auto|right; apply I1; auto].
  - destruct (IH _ _ I) as (I1 & I2). split; auto. intros y Y. right. apply I1; auto. Qed.
Lemma combinations_nodup (l : list point) : NoDup l -> forall k t, In t (combinations k l) -> NoDup t /\ filter (fun x => mem x t) l = t.
Proof. induction 1 as [|x l Nx Nl IH]; intros [|k] t.
  - cbn. intros [<-|[]]. split; [constructor|auto].
  - intros [].
  - cbn. intros [<-|[]]. split; [constructor|]. cbn. clear. induction l; auto.
  - cbn [combinations]. rewrite in_app_iff, in_map_iff. intros [(t' & <- & I)|I].
    + destruct (IH _ _ I) as (I1 & I2). assert (Nt : ~ In x t') by (intros X; apply (combinations_in l _ _ I) in X; auto). split; [constructor; auto|].
      cbn [filter]. assert (M : mem x (x :: t') = true) by (apply mem_spec; left; auto). rewrite M. f_equal. transitivity (filter (fun y => mem y t') l); [|exact I2]. apply filter_ext_in. intros y Iy.
      assert (Nyx : y <> x) by (intros ->; auto). destruct (mem y t') eqn:E; [apply mem_spec in E; apply mem_spec; right; auto|]. apply mem_false in E. apply mem_false. intros [->|X]; auto.
    + destruct (IH _ _ I) as (I1 & I2). split; auto. cbn [filter]. assert (M : mem x t = false) by (apply mem_false; intros X; apply (combinations_in l _ _ I) in X; auto). rewrite M. auto. Qed.
Lemma combinations_distinct (l : list point) : NoDup l -> forall k, NoDup (combinations k l).
Proof. induction 1 as [|x l Nx Nl IH]; intros [|k]; try (repeat constructor; intros []).
  cbn [combinations]. apply NoDup_app_intro; auto.
  - apply FinFun.Injective_map_NoDup; auto. intros a b [= E]; auto.
  - intros t I1 I2. apply in_map_iff in I1 as (t' & <- & I1). apply (combinations_in l) in I2 as (I2 & _). apply Nx, I2. left; auto. Qed.
Lemma combinations_filter (l : list point) f : In (filter f l) (combinations (length (filter f l)) l).
Proof. induction l as [|x l IH]; cbn [filter]; [left; auto|]. destruct (f x); cbn [length].
  - cbn [combinations]. apply in_app_iff. left. apply in_map; auto.
  - destruct (filter f l) eqn:E; [cbn; auto|]. cbn [length combinations] in *. apply in_app_iff. right. auto. Qed.

Section Draw.
  Variables (l : list point) (k : nat).
  Hypothesis Nl : NoDup l.

  Lemma combos_spec t : In t (map sort_tuple (combinations k l)) <-> combination l k t.
  Proof. rewrite in_map_iff. split.
    - intros (c & <- & I). apply sample_sorted. destruct (combinations_in l _ _ I) as (I1 & I2). split; [apply (combinations_nodup l Nl k c I)|]. auto.
    - intros ((N & I & L) & S). exists (filter (fun x => mem x t) l). assert (P : Permutation (filter (fun x => mem x t) l) t).
      { apply NoDup_Permutation; auto; [apply NoDup_filter; auto|]. intros x. rewrite filter_In, mem_spec. split; [tauto|]. intros X. split; auto. }
      split; [rewrite (sort_tuple_canonical _ _ P); apply sort_tuple_id; auto|]. rewrite <- L, <- (Permutation_length P). apply combinations_filter. Qed.
  Lemma combos_nodup : NoDup (map sort_tuple (combinations k l)).
  Proof. assert (G : forall cs, NoDup cs -> incl cs (combinations k l) -> NoDup (map sort_tuple cs)).
    { induction 1 as [|c cs Nc Ncs IH]; intros Inc; cbn; constructor; [|apply IH; intros x X; apply Inc; right; auto].
      intros X. apply in_map_iff in X as (d & E & Id). apply Nc. assert (Ic : In c (combinations k l)) by (apply Inc; left; auto). assert (Id' : In d (combinations k l)) by (apply Inc; right; auto).
      destruct (combinations_nodup l Nl k c Ic) as (_ & Fc). destruct (combinations_nodup l Nl k d Id') as (_ & Fd).
      assert (Eq : d = c); [|rewrite <- Eq; auto]. rewrite <- Fc, <- Fd. apply filter_ext. intros x. destruct (mem x c) eqn:Mc.
      - apply mem_spec in Mc. apply mem_spec. eapply Permutation_in; [apply sort_tuple_perm|]. rewrite E. eapply Permutation_in; [apply Permutation_sym, sort_tuple_perm|auto].
      - apply mem_false in Mc. apply mem_false. intros Md. apply Mc. eapply Permutation_in; [apply sort_tuple_perm|]. rewrite <- E. eapply Permutation_in; [apply Permutation_sym, sort_tuple_perm|auto]. }
    apply G; [apply combinations_distinct; auto|apply incl_refl]. Qed.

  Lemma draw_random_spec num : forall ds used, NoDup used -> Forall (combination l k) used -> Forall (sample_of l k) ds ->
    let (ys, left) := draw_random num used ds in
    NoDup (used ++ ys) /\ Forall (combination l k) ys /\ (left = true -> num <= 2 * length (used ++ ys)) /\
    (ys = [] \/ 2 * length (used ++ ys) <= S num).
  Proof. induction ds as [|d ds IH]; intros used N C S; cbn [draw_random].
    - destruct (Nat.leb_spec num (2 * length used)); rewrite app_nil_r; repeat split; auto; discriminate.
    - destruct (Nat.leb_spec num (2 * length used)) as [Hn|Hn]; [rewrite app_nil_r; repeat split; auto|].
      inversion_clear S as [|? ? Sd Sds]. destruct (mem (sort_tuple d) used) eqn:M; [apply IH; auto|]. apply mem_false in M.
      assert (E : set_add (sort_tuple d) used = used ++ [sort_tuple d]) by (unfold set_add; rewrite (proj2 (mem_false _ _) M); auto). rewrite E.
      specialize (IH (used ++ [sort_tuple d])). destruct (draw_random num (used ++ [sort_tuple d]) ds) as [ys left]. rewrite <- app_assoc in IH. cbn [app] in IH.
      assert (Sc : combination l k (sort_tuple d)) by (apply sample_sorted; auto).
      destruct IH as (I1 & I2 & I3 & I4); auto.
      + apply NoDup_app_intro; auto; [repeat constructor; auto|]. intros x X [<-|[]]. auto.
      + apply Forall_app. auto.
      + split; auto. split; [constructor; auto|]. split; auto. right. destruct I4 as [->|I4]; auto. rewrite app_length. cbn. lia. Qed.
  (** a draw that is not rejected always exists while the loop runs *)
  Lemma draw_random_progress used : 2 * length used < length (combinations k l) -> exists d, sample_of l k d /\ mem (sort_tuple d) used = false.
  Proof. intros H. destruct (existsb (fun c => negb (mem (sort_tuple c) used)) (combinations k l)) eqn:E.
    - apply existsb_exists in E as (c & I & E). apply negb_true_iff in E. exists c. split; auto. destruct (combinations_in l _ _ I). split; [apply (combinations_nodup l Nl k c I)|]. auto.
    - exfalso. assert (Inc : incl (map sort_tuple (combinations k l)) used).
      { intros t I. apply in_map_iff in I as (c & <- & I). destruct (mem (sort_tuple c) used) eqn:M; [apply mem_spec in M; auto|].
        assert (X : existsb (fun c => negb (mem (sort_tuple c) used)) (combinations k l) = true) by (apply existsb_exists; exists c; rewrite M; auto). congruence. }
      apply (NoDup_incl_length combos_nodup) in Inc. rewrite map_length in Inc. unfold tuple in *. lia. Qed.

  Lemma draw_batches_spec sh : (forall s, Permutation (sh s) s) -> forall n rest, NoDup rest -> length rest <= n -> Permutation (draw_batches n sh rest) rest.
  Proof. intros Sh. induction n as [|n IH]; intros [|t rest] N L; cbn [draw_batches]; auto; [cbn in L; lia|].
    set (r := t :: rest) in *. set (vals := firstn 10 (sh r)).
    assert (P : Permutation r (vals ++ skipn 10 (sh r))) by (unfold vals; rewrite firstn_skipn; apply Permutation_sym, Sh).
    assert (N' : NoDup (vals ++ skipn 10 (sh r))) by (eapply Permutation_NoDup; eauto).
    assert (F : Permutation (filter (fun t => negb (mem t vals)) r) (skipn 10 (sh r))).
    { apply NoDup_Permutation; [apply NoDup_filter; auto| |].
      - clear - N'. induction vals; auto. apply IHvals. inversion N'; auto.
      - intros x. rewrite filter_In, negb_true_iff, mem_false. split.
        + intros (I & Nv). apply (Permutation_in _ P) in I. apply in_app_iff in I as [I|I]; tauto.
        + intros I. split; [apply (Permutation_in _ (Permutation_sym P)), in_app_iff; auto|]. intros V. clear - N' I V. induction vals as [|v vals IHv]; [destruct V|].
          inversion_clear N' as [|? ? Nv N'']. destruct V as [->|V]; [apply Nv, in_app_iff; auto|auto]. }
    assert (Lv : 0 < length vals).
    { unfold vals. rewrite firstn_length. rewrite (Permutation_length (Sh r)). cbn. lia. }
    apply Permutation_trans with (vals ++ skipn 10 (sh r)); [|apply Permutation_sym; auto]. apply Permutation_app; auto.
    eapply Permutation_trans; [|exact F]. apply IH; [apply NoDup_filter; auto|].
    rewrite (Permutation_length F). apply Permutation_length in P. rewrite app_length in P. lia. Qed.

  Lemma draw_spec r m ts ends : good_rng r l k -> draw_neighbour_tuple r l k m = (ts, ends) ->
    NoDup ts /\ Forall (combination l k) ts /\ (ends = true -> forall t, combination l k t -> In t ts).
  Proof. intros [Gd Gs] H. unfold draw_neighbour_tuple in H.
    assert (X : forall (first : list tuple) (left : bool), NoDup first -> Forall (combination l k) first ->
      (if left then let rest := filter (fun t => negb (mem t first)) (dedup (map sort_tuple (combinations k l))) in
         (first ++ draw_batches (length rest) (shuffle r) rest, true) else (first, false)) = (ts, ends) ->
      NoDup ts /\ Forall (combination l k) ts /\ (ends = true -> forall t, combination l k t -> In t ts)).
    { intros first left Nf Cf. destruct left; [|intros [= <- <-]; repeat split; auto; discriminate]. cbv zeta.
      set (rest := filter (fun t => negb (mem t first)) (dedup (map sort_tuple (combinations k l)))). intros [= <- <-].
      assert (Nr : NoDup rest) by (apply NoDup_filter, NoDup_dedup).
      assert (P : Permutation (draw_batches (length rest) (shuffle r) rest) rest) by (apply draw_batches_spec; auto).
      assert (Ir : forall t, In t rest <-> combination l k t /\ ~ In t first).
      { intros t. unfold rest. rewrite filter_In, negb_true_iff, mem_false, in_dedup, combos_spec. reflexivity. }
      split; [|split].
      - apply NoDup_app_intro; auto; [eapply Permutation_NoDup; [apply Permutation_sym; exact P|auto]|]. intros t I1 I2. apply (Permutation_in _ P), Ir in I2. tauto.
      - apply Forall_app. split; auto. apply Forall_forall. intros t I. apply (Permutation_in _ P), Ir in I. tauto.
      - intros _ t Ct. apply in_app_iff. destruct (in_dec eq_dec t first); auto. right. apply (Permutation_in _ (Permutation_sym P)), Ir. auto. }
    destruct (10 * m <? binom (length l) k).
    - pose proof (draw_random_spec (binom (length l) k) (draws r) [] (NoDup_nil _) (Forall_nil _) Gd) as D. destruct (draw_random (binom (length l) k) [] (draws r)) as [first left].
      destruct D as (D1 & D2 & _). apply (X first left); auto.
    - apply (X [] true); auto. constructor. Qed.
End Draw.

(** ** the loop over the tuples *)
Lemma evaluate_tuples_spec cs pos m limit : forall ts seen vols ends b used,
  Forall2 (fun t v => get_volume cs pos t = Ok v) seen vols ->
  evaluate_tuples cs pos m limit seen vols ts ends = Ok (b, used) ->
  exists rest vols', seen ++ ts = used ++ rest /\ Forall2 (fun t v => get_volume cs pos t = Ok v) used vols' /\ b = avg_gt vols' limit /\
    ((rest = [] /\ ends = true) \/
     (m <= length used /\ 1 < length used /\ (sqrt (var vols' / INR (length used - 1)) < Rabs (limit - avg vols') / 2)%R)).
Proof. induction ts as [|t ts IH]; intros seen vols ends b used F; cbn [evaluate_tuples]; assert (L : length seen = length vols) by (clear - F; induction F; cbn; auto).
  - destruct ends; [|discriminate]. intros [= <- <-]. exists [], vols. split; auto.
  - destruct ((m <=? length vols) && (1 <? length vols) && rgt (Rabs (limit - avg vols) / 2) (sqrt (var vols / INR (length vols - 1)))) eqn:E.
    + intros [= <- <-]. apply andb_true_iff in E as (E1 & E3). apply andb_true_iff in E1 as (E1 & E2). apply Nat.leb_le in E1. apply Nat.ltb_lt in E2.
      exists (t :: ts), vols. split; auto. split; auto. split; auto. right. rewrite L. split; auto. split; auto. unfold rgt in E3. destruct (Rlt_dec _ _) in E3; [auto|discriminate].
    + destruct (get_volume cs pos t) as [v|e] eqn:V; [|discriminate]. cbn [bind]. intros H. replace (seen ++ t :: ts) with ((seen ++ [t]) ++ ts) by (rewrite <- app_assoc; auto).
      apply (IH _ _ _ _ _) in H; auto. apply Forall2_app; auto. Qed.
(** it goes on only as long as the mean is not clearly on one side *)
Lemma volumes_same cs pos : forall used vols vols', Forall2 (fun t v => get_volume cs pos t = Ok v) used vols -> Forall2 (fun t v => get_volume cs pos t = Ok v) used vols' -> vols = vols'.
Proof. intros used vols vols' F. revert vols'. induction F as [|t v used vols H F IH]; intros vols' F'; inversion F' as [|? v' ? l H' F'' E1 E2]; subst; auto. rewrite H in H'. injection H' as ->. f_equal. auto. Qed.
Lemma forall2_take {A B} (P : A -> B -> Prop) : forall j l m, Forall2 P l m -> Forall2 P (firstn j l) (firstn j m).
Proof. induction j as [|j IH]; intros l m F; [constructor|]. destruct F; cbn [firstn]; constructor; auto. Qed.
Lemma evaluate_tuples_seen cs pos m limit : forall ts seen vols ends b used, evaluate_tuples cs pos m limit seen vols ts ends = Ok (b, used) -> exists more, used = seen ++ more.
Proof. induction ts as [|t ts IH]; intros seen vols ends b used; cbn [evaluate_tuples].
  - destruct ends; [|discriminate]. intros [= <- <-]. exists []. rewrite app_nil_r. auto.
  - destruct (_ && _ && _); [intros [= <- <-]; exists []; rewrite app_nil_r; auto|]. destruct (get_volume cs pos t) as [v|]; [|discriminate]. cbn [bind]. intros H. apply IH in H as (more & ->). exists (t :: more). rewrite <- app_assoc. auto. Qed.
Lemma evaluate_tuples_go cs pos m limit : forall ts seen vols ends b used, Forall2 (fun t v => get_volume cs pos t = Ok v) seen vols ->
  evaluate_tuples cs pos m limit seen vols ts ends = Ok (b, used) -> forall vols', Forall2 (fun t v => get_volume cs pos t = Ok v) used vols' ->
  forall j, length seen <= j < length used -> m <= j -> 1 < j -> (Rabs (limit - avg (firstn j vols')) / 2 <= sqrt (var (firstn j vols') / INR (j - 1)))%R.
Proof. induction ts as [|t ts IH]; intros seen vols ends b used F; cbn [evaluate_tuples]; assert (L : length seen = length vols) by (clear - F; induction F; cbn; auto).
  - destruct ends; [|discriminate]. intros [= <- <-] vols' _ j Hj. lia.
  - destruct ((m <=? length vols) && (1 <? length vols) && rgt (Rabs (limit - avg vols) / 2) (sqrt (var vols / INR (length vols - 1)))) eqn:E; [intros [= <- <-] vols' _ j Hj; lia|].
    destruct (get_volume cs pos t) as [v|] eqn:V; [|discriminate]. cbn [bind]. intros H vols' F' j Hj Hm H1. destruct (Nat.eq_dec j (length seen)) as [->|Nj].
    + destruct (evaluate_tuples_seen _ _ _ _ _ _ _ _ _ _ H) as (more & ->). rewrite <- app_assoc in F'. pose proof (forall2_take _ (length seen) _ _ F') as T. rewrite firstn_app, Nat.sub_diag, firstn_all in T. cbn [firstn] in T. rewrite app_nil_r in T. rewrite <- (volumes_same cs pos _ _ _ F T).
      rewrite L in *. apply Nat.leb_le in Hm. apply Nat.ltb_lt in H1. rewrite Hm, H1 in E. cbn [andb] in E. unfold rgt in E. destruct (Rlt_dec _ _) as [X|X] in E; [discriminate|]. apply Rnot_lt_le. auto.
    + apply (IH (seen ++ [t]) (vols ++ [v]) ends b used); auto; [apply Forall2_app; auto|]. rewrite app_length. cbn [length]. lia. Qed.
