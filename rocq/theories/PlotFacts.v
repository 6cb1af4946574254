From Verif Require Import Base BaseFacts Graph SpecGraph GraphFacts Cluster SpecCluster Shape SpecShape ShapeFacts LineFacts Plot SpecPlot.
Open Scope list_scope.

Section Facts.
  Context {A W : Type} `{EqDec A}.
  Variable norder : graph A W -> A -> list A -> list A.
  Hypothesis NO : forall g u, any_order (norder g u).
  Variable too_long : A -> A -> bool.
  Hypothesis TL : forall u v, too_long u v = too_long v u.
  Implicit Types (g : graph A W).

  Definition open_edge g (u v : A) : nat := if adj g u v && negb (too_long u v) then 1 else 0.

  Lemma segments_snoc (p : list A) c x : p <> [] -> last p c = c -> segments (p ++ [x]) = segments p ++ [(c, x)].
  Proof. unfold segments. induction p as [|a p IH]; [congruence|]. intros _ L. destruct p as [|b p]; [cbn in *; subst; reflexivity|].
    cbn [app tl combine]. cbn [app tl] in IH. cbn [combine] in *. f_equal. apply IH; [discriminate|exact L]. Qed.
  Lemma times_app u v (ps qs : list (list A)) : times_drawn u v (ps ++ qs) = (times_drawn u v ps + times_drawn u v qs)%nat.
  Proof. unfold times_drawn. rewrite flat_map_app, filter_app, app_length. reflexivity. Qed.
  Lemma times_one u v (p : list A) : times_drawn u v [p] = length (filter (joins_ends u v) (segments p)).
  Proof. unfold times_drawn. cbn. rewrite app_nil_r. reflexivity. Qed.
  Lemma adj_sym g u v : adj g u v = adj g v u.
  Proof. destruct (adj g u v) eqn:E; symmetry; [apply adj_spec, has_edge_sym, adj_spec; auto|apply adj_false; apply adj_false in E; intros X; apply E, has_edge_sym; auto]. Qed.
  Lemma joins_ends_spec (u v : A) s : joins_ends u v s = true <-> (fst s = u /\ snd s = v) \/ (fst s = v /\ snd s = u).
  Proof. unfold joins_ends. rewrite orb_true_iff, !andb_true_iff, !eqb_spec. tauto. Qed.
  Lemma open_edge_removed g c n u v : has_edge g c n ->
    open_edge g u v = (open_edge (remove_edge g c n) u v + if joins_ends u v (c, n) && negb (too_long n c) then 1 else 0)%nat.
  Proof. intros E. unfold open_edge. destruct (joins_ends u v (c, n)) eqn:J.
    - apply joins_ends_spec in J. cbn in J. assert (A1 : adj g u v = true). { destruct J as [[-> ->]|[-> ->]]; [|rewrite adj_sym]; apply adj_spec; auto. }
      assert (A2 : adj (remove_edge g c n) u v = false). { apply adj_false. rewrite remove_edge_edges. intuition. }
      rewrite A1, A2. cbn. assert (T : too_long u v = too_long n c). { destruct J as [[-> ->]|[-> ->]]; auto. } rewrite T. reflexivity.
    - rewrite andb_false_l. assert (A1 : adj (remove_edge g c n) u v = adj g u v).
      { apply eq_true_iff_eq. rewrite !adj_spec, remove_edge_edges. split; [tauto|]. intros X. split; auto. intros Y. apply not_true_iff_false in J. apply J, joins_ends_spec. cbn. intuition. }
      rewrite A1. lia. Qed.
  Lemma filter_shorter {B} (f : B -> bool) l : (length (filter f l) <= length l)%nat.
  Proof. induction l as [|x l IH]; cbn; auto. destruct (f x); cbn; lia. Qed.
  Lemma remove_edge_shorter g c n : has_edge g c n -> (length (g_edges (remove_edge g c n)) < length (g_edges g))%nat.
  Proof. intros E. apply has_edge_in in E as (e & Ie & Je). cbn. revert Ie. generalize (g_edges g). induction l as [|f l IH]; intros [].
    - subst. cbn. rewrite Je. cbn. pose proof (filter_shorter (fun e => negb (joins c n e)) l). lia.
    - cbn. destruct (negb (joins c n f)); cbn; specialize (IH H0); lia. Qed.

  Lemma walk_spec fuel : forall g c path paths, (length (g_edges g) < fuel)%nat -> wf_graph g -> path <> [] -> last path c = c ->
    exists g' extra, walk norder too_long fuel g c path paths = Ok (g', paths ++ extra) /\ wf_graph g' /\ g_nodes g' = g_nodes g /\
      (forall u v, has_edge g' u v -> has_edge g u v) /\ (length (g_edges g') <= length (g_edges g))%nat /\
      ((exists n, has_edge g c n) -> (length (g_edges g') < length (g_edges g))%nat) /\
      extra <> [] /\ Forall (fun p => p <> []) extra /\ (forall x, In x (concat extra) -> In x path \/ exists y, has_edge g x y) /\
      forall u v, (times_drawn u v extra + open_edge g' u v)%nat = (times_drawn u v [path] + open_edge g u v)%nat.
  Proof. induction fuel as [|fuel IH]; intros g c path paths L Wf Np Lp; [lia|]. cbn [walk].
    destruct (norder g c (neighbors g c)) as [|n l] eqn:E.
    - exists g, [path]. split; auto. split; auto. split; auto. split; auto. split; auto.
      assert (Nb : forall n, ~ has_edge g c n). { intros n X. apply in_neighbors in X. apply (Permutation_in _ (Permutation_sym (NO g c _))) in X. rewrite E in X. destruct X. }
      split. { intros (n & X). destruct (Nb n X). }
      split; [discriminate|]. split; [repeat constructor; auto|]. split; auto. cbn. intros x Ix. rewrite app_nil_r in Ix. auto.
    - assert (Hn : has_edge g c n). { apply in_neighbors. apply (Permutation_in _ (NO g c _)). rewrite E. left. auto. }
      pose proof (remove_edge_shorter g c n Hn) as Sh.
      assert (Step : forall path' paths', path' <> [] -> last path' n = n -> exists g' extra, walk norder too_long fuel (remove_edge g c n) n path' paths' = Ok (g', paths' ++ extra) /\ wf_graph g' /\ g_nodes g' = g_nodes g /\
          (forall u v, has_edge g' u v -> has_edge g u v) /\ (length (g_edges g') < length (g_edges g))%nat /\
          extra <> [] /\ Forall (fun p => p <> []) extra /\ (forall x, In x (concat extra) -> In x path' \/ exists y, has_edge g x y) /\
          forall u v, (times_drawn u v extra + open_edge g' u v)%nat = (times_drawn u v [path'] + open_edge (remove_edge g c n) u v)%nat).
      { intros path' paths' Np' Lp'. destruct (IH (remove_edge g c n) n path' paths') as (g' & ex & R & Wf' & Nd & He & Le & _ & X1 & X2 & X3 & X4); auto; [lia|apply wf_remove_edge; auto|].
        exists g', ex. split; auto. split; auto. split; auto. split. { intros u v X. apply He in X. apply remove_edge_edges in X. tauto. } split; [lia|]. split; auto. split; auto. split; auto.
        intros x Ix. destruct (X3 x Ix) as [|(y & Y)]; auto. right. exists y. apply remove_edge_edges in Y. tauto. }
      assert (Lst : last (path ++ [n]) n = n) by apply last_last.
      destruct (too_long n c) eqn:T.
      + destruct (Step [n] (paths ++ [path])) as (g' & ex & R & Wf' & Nd & He & Le & X1 & X2 & X3 & X4); [discriminate|reflexivity|].
        exists g', (path :: ex). rewrite R, <- app_assoc. split; auto. split; auto. split; auto. split; auto. split; [lia|]. split; auto. split; [discriminate|]. split; [constructor; auto|]. split.
        * intros x Ix. cbn in Ix. apply in_app_iff in Ix as [Ix|Ix]; auto. destruct (X3 x Ix) as [[<- |[]]|]; auto. right. exists c. apply has_edge_sym. auto.
        * intros u v. rewrite (open_edge_removed g c n u v Hn), T, andb_false_r. change (path :: ex) with ([path] ++ ex). rewrite times_app. specialize (X4 u v). rewrite times_one in X4. cbn [segments combine tl filter length] in X4. lia.
      + destruct (Step (path ++ [n]) paths) as (g' & ex & R & Wf' & Nd & He & Le & X1 & X2 & X3 & X4); [destruct path; discriminate|auto|].
        exists g', ex. rewrite R. split; auto. split; auto. split; auto. split; auto. split; [lia|]. split; auto. split; auto. split; auto. split.
        * intros x Ix. destruct (X3 x Ix) as [Y|]; auto. apply in_app_iff in Y as [|[<- |[]]]; auto. right. exists c. apply has_edge_sym. auto.
        * intros u v. rewrite (open_edge_removed g c n u v Hn), T. specialize (X4 u v). rewrite times_one in *. rewrite (segments_snoc path c n Np Lp), filter_app, app_length in X4. cbn [filter] in X4.
          destruct (joins_ends u v (c, n)); cbn [length andb negb] in *; lia. Qed.

  Lemma degree_pos g x : (0 < degree g x)%nat <-> exists y, has_edge g x y.
  Proof. unfold degree, list_sum. split.
    - intros P. assert (X : exists e, In e (g_edges g) /\ ((if eqb (end1 e) x then 1 else 0) + (if eqb (end2 e) x then 1 else 0) <> 0)%nat).
      { revert P. generalize (g_edges g). induction l as [|e l IH]; cbn; [lia|]. intros P. destruct (Nat.eq_dec ((if eqb (end1 e) x then 1 else 0) + (if eqb (end2 e) x then 1 else 0)) 0) as [Z|Z]; [|exists e; auto].
        destruct IH as (f & F1 & F2); [lia|]. exists f. auto. }
      destruct X as (e & Ie & Ne). destruct (eqb (end1 e) x) eqn:E1; [apply eqb_spec in E1; exists (end2 e)|destruct (eqb (end2 e) x) eqn:E2; [apply eqb_spec in E2; exists (end1 e)|cbn in Ne; lia]]; apply has_edge_in; exists e; split; auto; apply joins_spec; auto.
    - intros (y & E). apply has_edge_in in E as (e & Ie & Je). apply joins_spec in Je. revert Ie. generalize (g_edges g). induction l as [|f l IH]; intros []; cbn.
      + subst f. destruct Je as [[-> _]|[_ ->]]; rewrite eqb_refl; lia.
      + specialize (IH H0). lia. Qed.
  Lemma fold_best (f : A -> A -> bool) l : forall x, In (fold_left (fun best y => if f y best then y else best) l x) (x :: l).
  Proof. induction l as [|y l IH]; intros x; cbn; auto. destruct (f y x); [destruct (IH y)|destruct (IH x)]; cbn; auto. Qed.
  Lemma start_spec g : wf_graph g -> g_edges g <> [] -> exists x y, next_starting_point g = Ok x /\ In x (g_nodes g) /\ has_edge g x y.
  Proof. intros Wf Ne. unfold next_starting_point. destruct (filter _ (g_nodes g)) as [|x l] eqn:E.
    - exfalso. destruct (g_edges g) as [|[[u v] w] es] eqn:Eg; [congruence|]. assert (Hu : has_edge g u v) by (exists w; left; rewrite Eg; left; auto).
      assert (Iu : In u (filter (fun x => (0 <? degree g x)%nat) (g_nodes g))). { apply filter_In. split; [apply (wf_ends Wf Hu)|]. apply Nat.ltb_lt, degree_pos. eauto. }
      rewrite E in Iu. destruct Iu.
    - eexists. set (b := fold_left _ l x). assert (I : In b (x :: l)) by apply (fold_best (fun y best => key_lt (start_key g y) (start_key g best))). rewrite <- E in I.
      apply filter_In in I as (I1 & I2). apply Nat.ltb_lt, degree_pos in I2 as (y & Hy). exists y. auto. Qed.

  Lemma graph_paths_spec fuel : forall g paths, (length (g_edges g) < fuel)%nat -> wf_graph g ->
    exists extra, graph_paths norder too_long fuel g paths = Ok (paths ++ extra) /\ (extra = [] <-> g_edges g = []) /\ Forall (fun p => p <> []) extra /\
      (forall x, In x (concat extra) -> exists y, has_edge g x y) /\ forall u v, times_drawn u v extra = open_edge g u v.
  Proof. induction fuel as [|fuel IH]; intros g paths L Wf; [lia|]. cbn [graph_paths]. destruct (g_edges g) as [|e es] eqn:Eg.
    - exists []. rewrite app_nil_r. split; auto. split; [tauto|]. split; auto. split; [intros x []|]. intros u v. unfold open_edge, adj. rewrite Eg. reflexivity.
    - assert (Ne : g_edges g <> []) by congruence. destruct (start_spec g Wf Ne) as (c & n & Es & Ic & Hn). rewrite Es. cbn [bind].
      destruct (walk_spec (S (length (e :: es))) g c [c] paths) as (g' & ex & R & Wf' & Nd & He & _ & Lt & X1 & X2 & X3 & X4); auto; [rewrite Eg; lia|discriminate|].
      rewrite R. cbn [bind fst snd]. destruct (IH g' (paths ++ ex)) as (ex' & R' & Y1 & Y2 & Y3 & Y4); auto. { assert (X : (length (g_edges g') < length (g_edges g))%nat) by eauto. rewrite Eg in X. lia. }
      rewrite R', <- app_assoc. exists (ex ++ ex'). split; auto. split; [split; intros X; [apply app_eq_nil in X; tauto|discriminate]|]. split; [apply Forall_app; auto|]. split.
      + intros x Ix. rewrite concat_app in Ix. apply in_app_iff in Ix as [Ix|Ix].
        * destruct (X3 x Ix) as [[<- |[]]|]; eauto.
        * destruct (Y3 x Ix) as (y & Y). exists y. auto.
      + intros u v. rewrite times_app, Y4, X4, times_one. cbn. reflexivity. Qed.
  Lemma paths_spec g : wf_graph g -> exists paths, get_graph_paths norder too_long g = Ok paths /\ (paths = [] <-> g_edges g = []) /\ Forall (fun p => p <> []) paths /\
      (forall x, In x (concat paths) -> exists y, has_edge g x y) /\ forall u v, times_drawn u v paths = open_edge g u v.
  Proof. intros Wf. unfold get_graph_paths. destruct (graph_paths_spec (S (length (g_edges g))) g [] (Nat.lt_succ_diag_r _) Wf) as (ex & R & X). exists ex. auto. Qed.

  (** ** Lines and rings *)
  Lemma next_cons c n l (u v : A) : next_in (c :: n :: l) u v <-> (u = c /\ v = n) \/ (u = n /\ v = c) \/ next_in (n :: l) u v.
  Proof. split.
    - intros (l1 & l2 & [E|E]); (destruct l1 as [|a l1]; cbn in E; [injection E as -> -> ->; auto|injection E as -> E]); right; right; exists l1, l2; auto.
    - intros [[-> ->]|[[-> ->]|(l1 & l2 & [E|E])]]; [exists [], l; auto|exists [], l; auto| |]; exists (c :: l1), l2; rewrite E; auto. Qed.
  Lemma next_one c (u v : A) : ~ next_in [c] u v.
  Proof. intros (l1 & l2 & [E|E]); destruct l1 as [|a [|b l1]]; discriminate. Qed.
  Lemma next_rev p (u v : A) : next_in (rev p) u v <-> next_in p u v.
  Proof. assert (X : forall p, next_in p u v -> next_in (rev p) u v).
    { intros q (l1 & l2 & [-> | ->]); exists (rev l2), (rev l1); rewrite rev_app_distr; cbn; rewrite <- !app_assoc; auto. }
    split; [intros Y; apply X in Y; rewrite rev_involutive in Y; auto|apply X]. Qed.
  Lemma next_snoc l a b (u v : A) : next_in (l ++ [a; b]) u v <-> (u = a /\ v = b) \/ (u = b /\ v = a) \/ next_in (l ++ [a]) u v.
  Proof. rewrite <- next_rev, rev_app_distr. cbn. rewrite next_cons, <- (next_rev (l ++ [a])), rev_app_distr. cbn. tauto. Qed.
  Lemma closed_ends a l z (u v : A) : ends_of (a :: l ++ [z]) u v <-> (u = a /\ v = z) \/ (u = z /\ v = a).
  Proof. split.
    - intros (m & [E|E]); injection E as -> E; apply app_inj_tail in E as (_ & ->); auto.
    - intros [[-> ->]|[-> ->]]; exists l; auto. Qed.
  (** rings as closed lists *)
  Lemma ring_closed g a l : is_ring g (a :: l) <-> NoDup (a :: l) /\ (2 <= length l)%nat /\ (forall x, In x (a :: l) <-> In x (g_nodes g)) /\
    forall u v, has_edge g u v <-> next_in (a :: l ++ [a]) u v.
  Proof. unfold is_ring. assert (X : (2 <= length l)%nat -> forall u v, next_in (a :: l ++ [a]) u v <-> next_in (a :: l) u v \/ ends_of (a :: l) u v).
    { intros L u v. destruct (exists_last (l := l)) as (m & z & ->); [destruct l; cbn in L; [lia|discriminate]|]. rewrite closed_ends.
      replace (a :: (m ++ [z]) ++ [a]) with ((a :: m) ++ [z; a]) by (cbn; rewrite <- app_assoc; reflexivity). rewrite next_snoc. cbn. tauto. }
    cbn [length]. split; intros (A1 & A2 & A3 & A4); (split; [auto|]; split; [lia|]; split; [auto|]); intros u v; rewrite A4; [symmetry|]; apply X; lia. Qed.
  Lemma ring_rotate g a l : is_ring g (a :: l) -> is_ring g (l ++ [a]).
  Proof. destruct l as [|b m]; [intros (_ & L & _); cbn in L; lia|]. cbn [app]. rewrite !ring_closed. intros (A1 & A2 & A3 & A4). split; [|split; [|split]].
    - apply (Permutation_NoDup (l := a :: b :: m)); auto. change (b :: m ++ [a]) with ((b :: m) ++ [a]). apply Permutation_cons_append.
    - rewrite app_length. cbn in *. lia.
    - intros x. rewrite <- A3. cbn. rewrite in_app_iff. cbn. tauto.
    - intros u v. rewrite A4. cbn [app]. rewrite next_cons. replace (b :: (m ++ [a]) ++ [b]) with ((b :: m) ++ [a; b]) by (cbn; rewrite <- app_assoc; reflexivity).
      rewrite next_snoc. cbn. tauto. Qed.
  Lemma ring_at g x l1 : forall l2, is_ring g (l1 ++ x :: l2) -> is_ring g (x :: l2 ++ l1).
  Proof. induction l1 as [|a l1 IH]; intros l2 R; [rewrite app_nil_r; auto|]. cbn in R. apply ring_rotate in R. rewrite <- app_assoc in R. cbn in R. apply IH in R. rewrite <- app_assoc in R. exact R. Qed.
  Lemma ring_reverse g a l : is_ring g (a :: l) -> is_ring g (a :: rev l).
  Proof. rewrite !ring_closed. intros (A1 & A2 & A3 & A4). split; [|split; [|split]].
    - inversion A1; subst. constructor; [rewrite <- in_rev; auto|]. apply NoDup_rev. auto.
    - rewrite rev_length. auto.
    - intros x. rewrite <- A3. cbn. rewrite <- in_rev. tauto.
    - intros u v. rewrite A4. rewrite <- next_rev. cbn. rewrite rev_app_distr. cbn. tauto. Qed.
  Lemma ring_from g p x n : is_ring g p -> has_edge g x n -> exists q, is_ring g (x :: n :: q).
  Proof. intros R E. assert (Ix : In x p). { destruct R as (_ & _ & _ & R). apply R in E as [E|E]; [destruct E as (l1 & l2 & [-> | ->]); rewrite in_app_iff; cbn; auto|]. destruct E as (m & [-> | ->]); cbn; rewrite ?in_app_iff; cbn; auto. }
    apply in_split in Ix as (l1 & l2 & ->). apply ring_at in R. set (q := l2 ++ l1) in *. clearbody q. clear l1 l2.
    assert (L : (2 <= length q)%nat) by (destruct R as (_ & L & _); cbn in L; lia). assert (Nd : NoDup (x :: q)) by (destruct R as (N & _); auto).
    destruct (exists_last (l := q)) as (m & z & Eq); [destruct q; cbn in L; [lia|discriminate]|]. destruct q as [|a q]; [cbn in L; lia|].
    apply ring_closed in R as R'. destruct R' as (_ & _ & _ & He). apply He in E. cbn [app] in E. apply next_cons in E as [(_ & ->)|[(-> & ->)|E]].
    - exists q. auto.
    - exfalso. inversion Nd as [|? ? X _]; subst. apply X. left. auto.
    - assert (n = z). { rewrite Eq in Nd. destruct m as [|b m]; [exfalso; rewrite Eq in L; cbn in L; lia|]. cbn in Eq. injection Eq as -> ->. cbn in E. rewrite <- app_assoc in E. cbn in E.
        replace (b :: m ++ [z; x]) with ((b :: m) ++ [z; x]) in E by reflexivity. eapply next_last; [|exact E]. 
        replace ((b :: m) ++ [z; x]) with (((b :: m) ++ [z]) ++ [x]) by (rewrite <- app_assoc; reflexivity). apply (Permutation_NoDup (l := x :: (b :: m) ++ [z])); [apply Permutation_cons_append|exact Nd]. }
      subst z. apply ring_reverse in R. rewrite Eq, rev_app_distr in R. cbn in R. eauto. Qed.

  Definition all_short g := forall u v, has_edge g u v -> too_long u v = false.
  Lemma no_edges g : (forall u v, ~ has_edge g u v) -> g_edges g = [].
  Proof. intros X. destruct (g_edges g) as [|[[u v] w] es] eqn:E; auto. destruct (X u v). exists w. left. rewrite E. left. auto. Qed.
  Lemma next_edges_removed g c n l : NoDup (c :: n :: l) -> (forall u v, has_edge g u v <-> next_in (c :: n :: l) u v) ->
    forall u v, has_edge (remove_edge g c n) u v <-> next_in (n :: l) u v.
  Proof. intros N He u v. rewrite remove_edge_edges, He, next_cons. split; [tauto|]. intros X. split; auto.
    assert (Y : forall w, ~ next_in (n :: l) c w). { intros w (l1 & l2 & [E|E]); inversion N as [|? ? Z]; subst; apply Z; rewrite E, in_app_iff; cbn; auto. }
    intros [[-> ->]|[-> ->]]; [eapply Y; eauto|]. apply next_sym in X. eapply Y; eauto. Qed.
  Lemma walk_line l : forall fuel g c path paths, (length l < fuel)%nat -> all_short g -> NoDup (c :: l) -> (forall u v, has_edge g u v <-> next_in (c :: l) u v) ->
    exists g', walk norder too_long fuel g c path paths = Ok (g', paths ++ [path ++ l]) /\ g_edges g' = [].
  Proof. induction l as [|n l IH]; intros [|fuel] g c path paths L Sh Nd He; try (cbn in L; lia); cbn [walk].
    - assert (Z : norder g c (neighbors g c) = []).
      { destruct (norder g c (neighbors g c)) as [|n m] eqn:E; auto. exfalso. assert (Hn : has_edge g c n) by (apply in_neighbors, (Permutation_in _ (NO g c _)); rewrite E; left; auto). apply He in Hn. eapply next_one; eauto. }
      rewrite Z. exists g. rewrite app_nil_r. split; auto. apply no_edges. intros u v X. apply He in X. eapply next_one; eauto.
    - destruct (norder g c (neighbors g c)) as [|n' m] eqn:E.
      { exfalso. assert (Hn : has_edge g c n) by (apply He, next_cons; auto). apply in_neighbors in Hn. apply (Permutation_in _ (Permutation_sym (NO g c _))) in Hn. rewrite E in Hn. destruct Hn. }
      assert (Hn : has_edge g c n') by (apply in_neighbors, (Permutation_in _ (NO g c _)); rewrite E; left; auto). assert (n' = n) by (apply He in Hn; eapply next_first; eauto). subst n'.
      rewrite TL, (Sh c n Hn). destruct (IH fuel (remove_edge g c n) n (path ++ [n]) paths) as (g' & R & Z).
      + cbn in L. lia.
      + intros u v X. apply Sh. apply remove_edge_edges in X. tauto.
      + inversion Nd; auto.
      + apply next_edges_removed; auto.
      + exists g'. rewrite R, <- app_assoc. auto. Qed.

  Lemma key_lt_trans a b c : key_lt a b = false -> key_lt b c = false -> key_lt a c = false.
  Proof. destruct a, b, c; cbn; intros X Y; auto; try discriminate. apply Nat.ltb_ge in X, Y. apply Nat.ltb_ge. lia. Qed.
  Lemma key_lt_asym a b : key_lt a b = true -> key_lt b a = false.
  Proof. destruct a, b; cbn; intros X; auto; try discriminate. apply Nat.ltb_lt in X. apply Nat.ltb_ge. lia. Qed.
  Lemma key_lt_refl a : key_lt a a = false.
  Proof. destruct a; cbn; auto. apply Nat.ltb_ge. lia. Qed.
  Lemma fold_least g l : forall x y, In y (x :: l) ->
    key_lt (start_key g y) (start_key g (fold_left (fun best y => if key_lt (start_key g y) (start_key g best) then y else best) l x)) = false.
  Proof. induction l as [|z l IH]; intros x y I; cbn [fold_left].
    - destruct I as [<- |[]]. apply key_lt_refl.
    - destruct (key_lt (start_key g z) (start_key g x)) eqn:K; destruct I as [<- |[<- |I]].
      + eapply key_lt_trans; [apply key_lt_asym; exact K|]. apply IH. left. auto.
      + apply IH. left. auto.
      + apply IH. right. auto.
      + apply IH. left. auto.
      + eapply key_lt_trans; [exact K|]. apply IH. left. auto.
      + apply IH. right. auto. Qed.
  (** the starting point has the least degree other than two *)
  Lemma start_least g c : next_starting_point g = Ok c -> In c (g_nodes g) /\ (0 < degree g c)%nat /\
    forall y, In y (g_nodes g) -> (0 < degree g y)%nat -> key_lt (start_key g y) (start_key g c) = false.
  Proof. unfold next_starting_point. destruct (filter _ _) as [|x l] eqn:E; [discriminate|]. intros X. injection X as <-.
    assert (I := fold_best (fun y best => key_lt (start_key g y) (start_key g best)) l x). rewrite <- E in I. apply filter_In in I as (I1 & I2). apply Nat.ltb_lt in I2. split; auto. split; auto.
    intros y Iy Dy. apply fold_least. rewrite <- E. apply filter_In. split; auto. apply Nat.ltb_lt. auto. Qed.

  Lemma edges_length_line g p : is_line g p -> wf_graph g -> (length p <= S (length (g_edges g)))%nat.
  Proof. intros Ln Wf. destruct Ln as (Nd & _ & _ & He). destruct p as [|a p]; [cbn; lia|]. cbn [length]. apply le_n_S.
    revert g a Wf Nd He. induction p as [|b p IH]; intros g a Wf Nd He; [cbn; lia|]. pose proof (next_edges_removed g a b p Nd He) as X.
    inversion Nd; subst. assert (Hab : has_edge g a b) by (apply He, next_cons; auto). pose proof (remove_edge_shorter g a b Hab). specialize (IH (remove_edge g a b) b (wf_remove_edge a b Wf) H3 X). cbn [length]. lia. Qed.

  Lemma paths_line g p : wf_graph g -> is_line g p -> all_short g -> get_graph_paths norder too_long g = Ok [p] \/ get_graph_paths norder too_long g = Ok [rev p].
  Proof. intros Wf Ln Sh. destruct (line_degrees g Wf p Ln) as (_ & u & v & Nuv & Iu & Iv & Du & Dv & D2). pose proof Ln as (Nd & L & Mem & He).
    assert (Ll : loopless g) by (eapply line_loopless; eauto).
    assert (Ne : g_edges g <> []). { intros Z. unfold degree in Du. rewrite Z in Du. discriminate. }
    destruct (start_spec g Wf Ne) as (c & n & Es & Ic & Hn). destruct (start_least g c Es) as (_ & Dc & Least).
    assert (D1 : degree g c = 1%nat). { specialize (Least u Iu ltac:(lia)). unfold start_key in Least. rewrite Du in Least. cbn [Nat.eqb] in Least. destruct (degree g c =? 2)%nat eqn:E2; [discriminate|]. cbn [key_lt] in Least. apply Nat.ltb_ge in Least. lia. }
    assert (End : exists l, (p = c :: l \/ rev p = c :: l)).
    { assert (Ip : In c p) by (apply Mem; auto). destruct (position p c Ip) as [(l & ->)|[(l1 & a & ->)|(l1 & a & b & l2 & ->)]]; [eauto| |].
      - exists (rev (l1 ++ [a])). right. rewrite !rev_app_distr. reflexivity.
      - exfalso. assert (X : degree g c = length [a; b]). { apply degree_exact; auto.
          - constructor; [|repeat constructor; auto]. intros [-> |[]]. apply NoDup_remove_2 in Nd. apply Nd. rewrite in_app_iff. cbn. auto.
          - intros y. rewrite He. cbn. split.
            + intros [<- |[<- |[]]]; [apply next_sym; exists l1, (b :: l2); auto|exists (l1 ++ [a]), l2; left; apply snoc_app].
            + intros X. apply next_mid in X; auto. destruct X; auto. }
        cbn in X. lia. }
    destruct End as (l & End). unfold get_graph_paths. cbn [graph_paths]. destruct (g_edges g) as [|e es] eqn:Eg; [congruence|]. rewrite Es. cbn [bind].
    assert (Ll2 : (length p <= S (length (e :: es)))%nat) by (rewrite <- Eg; apply edges_length_line; auto).
    assert (Wk : exists g', walk norder too_long (S (length (e :: es))) g c [c] [] = Ok (g', [c :: l]) /\ g_edges g' = []).
    { apply (walk_line l); auto.
      - destruct End as [-> |E]; [cbn in *; lia|]. rewrite <- rev_length, E in Ll2. cbn in *. lia.
      - destruct End as [<- | <-]; auto. apply NoDup_rev. auto.
      - intros x y. rewrite He. destruct End as [<- | <-]; [tauto|symmetry; apply next_rev]. }
    destruct Wk as (g' & R & Z). rewrite R. cbn [bind fst snd]. cbn [graph_paths length]. rewrite Z. destruct End as [-> | ->]; auto. Qed.

  Lemma edges_length_walk g a l : wf_graph g -> NoDup (a :: l) -> (forall u v, has_edge g u v <-> next_in (a :: l) u v) -> (length l <= length (g_edges g))%nat.
  Proof. revert g a. induction l as [|b p IH]; intros g a Wf Nd He; [cbn; lia|]. pose proof (next_edges_removed g a b p Nd He) as X.
    inversion Nd; subst. assert (Hab : has_edge g a b) by (apply He, next_cons; auto). pose proof (remove_edge_shorter g a b Hab). specialize (IH (remove_edge g a b) b (wf_remove_edge a b Wf) H3 X). cbn [length]. lia. Qed.
  Lemma ring_cut g x n q : is_ring g (x :: n :: q) -> forall u v, has_edge (remove_edge g x n) u v <-> next_in (n :: q ++ [x]) u v.
  Proof. intros R u v. apply ring_closed in R as (Nd & L & _ & He). rewrite remove_edge_edges, He. cbn [app]. rewrite next_cons. split; [tauto|]. intros X. split; auto.
    intros Y. assert (Z : next_in (n :: q ++ [x]) x n). { destruct Y as [[-> ->]|[-> ->]]; auto. apply next_sym. auto. }
    destruct (exists_last (l := q)) as (m & z & ->); [destruct q; cbn in L; [lia|discriminate]|]. 
    assert (E : n :: (m ++ [z]) ++ [x] = (n :: m) ++ [z; x]) by (cbn; rewrite <- app_assoc; reflexivity). rewrite E in Z.
    assert (Nd' : NoDup ((n :: m) ++ [z; x])). { rewrite <- E. apply (Permutation_NoDup (l := x :: n :: m ++ [z])); auto. change (n :: (m ++ [z]) ++ [x]) with ((n :: m ++ [z]) ++ [x]). apply Permutation_cons_append. }
    apply next_last in Z; auto. subst z. rewrite <- E in Nd'. inversion Nd' as [|? ? W' _]; subst. apply W'. rewrite !in_app_iff. cbn. auto. Qed.

  Lemma paths_ring g p : wf_graph g -> is_ring g p -> all_short g -> exists x q, get_graph_paths norder too_long g = Ok [x :: q ++ [x]] /\ is_ring g (x :: q).
  Proof. intros Wf R Sh. destruct (ring_degrees g Wf p R) as (_ & Nn & D2).
    assert (Ne : g_edges g <> []). { destruct (g_nodes g) as [|y ys]; [congruence|]. intros Z. assert (X : degree g y = 2%nat) by (apply D2; left; auto). unfold degree in X. rewrite Z in X. discriminate. }
    destruct (start_spec g Wf Ne) as (c & n0 & Es & Ic & Hn0). unfold get_graph_paths. cbn [graph_paths]. destruct (g_edges g) as [|e es] eqn:Eg; [congruence|]. rewrite Es. cbn [bind].
    cbn [walk]. destruct (norder g c (neighbors g c)) as [|n m] eqn:E.
    { exfalso. apply in_neighbors in Hn0. apply (Permutation_in _ (Permutation_sym (NO g c _))) in Hn0. rewrite E in Hn0. destruct Hn0. }
    assert (Hn : has_edge g c n) by (apply in_neighbors, (Permutation_in _ (NO g c _)); rewrite E; left; auto). rewrite TL, (Sh c n Hn).
    destruct (ring_from g p c n R Hn) as (q & Rq). pose proof (ring_cut g c n q Rq) as Cut. pose proof Rq as Rc. apply ring_closed in Rc as (Nd & Lq & _ & _).
    assert (Nd' : NoDup (n :: q ++ [c])). { apply (Permutation_NoDup (l := c :: n :: q)); auto. change (n :: q ++ [c]) with ((n :: q) ++ [c]). apply Permutation_cons_append. }
    pose proof (remove_edge_shorter g c n Hn) as Lt. rewrite Eg in Lt. pose proof (edges_length_walk _ n (q ++ [c]) (wf_remove_edge c n Wf) Nd' Cut) as Ll.
    destruct (walk_line (q ++ [c]) (length (e :: es)) (remove_edge g c n) n ([c] ++ [n]) []) as (g' & Rw & Z); auto; [lia| |].
    - intros u v X. apply Sh. apply remove_edge_edges in X. tauto.
    - rewrite Rw. cbn [bind fst snd]. cbn [length graph_paths]. rewrite Z. exists c, (n :: q). split; auto. Qed.
End Facts.
