(** Proofs about degrees and shapes. *)
From Verif Require Import Base BaseFacts Graph SpecGraph GraphFacts GraphComponents Dimension Shape SpecShape.
Open Scope list_scope.

Lemma insert_by_perm {A} (le : A -> A -> bool) x l : Permutation (insert_by le x l) (x :: l).
Proof. induction l as [|y l IH]; cbn; auto. destruct (le x y); auto. rewrite IH. apply perm_swap. Qed.
Lemma sort_by_perm {A} (le : A -> A -> bool) l : Permutation (sort_by le l) l.
Proof. induction l as [|x l IH]; cbn; auto. rewrite insert_by_perm. auto. Qed.

(** ** Counters *)
Lemma counter_add_count d c k : NoDup (map fst c) ->
  NoDup (map fst (counter_add d c)) /\
  (forall n, In (k, n) (counter_add d c) <-> (k = d /\ exists m, (n = S m /\ (In (k, m) c \/ (m = 0%nat /\ ~ In k (map fst c))))) \/ (k <> d /\ In (k, n) c)).
Proof. induction c as [|[k0 n0] c IH]; intros N.
  - cbn. split; [repeat constructor; auto|]. intros n. split.
    + intros [E|[]]. injection E as <- <-. left. split; auto. exists 0%nat. auto.
    + intros [(-> & m & -> & [[]|(-> & _)])|(_ & [])]. auto.
  - cbn in N. inversion N as [|? ? N1 N2]; subst. destruct (IH N2) as (I1 & I2). cbn [counter_add]. destruct (Nat.eqb_spec k0 d) as [-> |Ne].
    + cbn. split; auto. intros n. split.
      * intros [E|Hc]; [injection E as <- <-; left; split; auto; exists n0; auto|].
        right. split; auto. intros ->. apply N1. apply (in_map fst) in Hc. auto.
      * intros [(-> & m & -> & [[E|Hc]|(_ & X)])|(Hk & [E|Hc])]; auto.
        -- injection E as <-. auto.
        -- exfalso. apply N1. apply (in_map fst) in Hc. auto.
        -- exfalso. apply X. auto.
        -- congruence.
    + cbn. split.
      * constructor; auto. intros X. apply N1. apply in_map_iff in X as ([k1 n1] & E & X). cbn in E. subst k1.
        assert (Hk : In k0 (map fst c)); auto. clear - X Ne. induction c as [|[a b] c IHc]; cbn in *.
        -- destruct X as [E|[]]. injection E as E1 E2. congruence.
        -- destruct (Nat.eqb_spec a d); cbn in X; destruct X as [E|X].
           ++ injection E as -> _. auto.
           ++ right. apply (in_map fst) in X. auto.
           ++ injection E as -> _. auto.
           ++ right. auto.
      * intros n. rewrite I2. split.
        -- intros [E|[(-> & m & -> & [Hc|(-> & X)])|(Hk & Hc)]].
           ++ injection E as -> ->. right. split; auto.
           ++ left. split; auto. exists m. auto.
           ++ left. split; auto. exists 0%nat. split; auto. right. split; auto. intros [E|X']; auto.
           ++ auto.
        -- intros [(-> & m & -> & [[E|Hc]|(-> & X)])|(Hk & [E|Hc])]; auto.
           ++ injection E as -> ->. congruence.
           ++ right. left. split; auto. exists m. auto.
           ++ right. left. split; auto. exists 0%nat. split; [reflexivity|]. right. split; [reflexivity|]. intros X'. apply X. right. exact X'. Qed.

Lemma count_values_spec l : NoDup (map fst (count_values l)) /\
  forall k n, In (k, n) (count_values l) <-> (1 <= n)%nat /\ count_occ Nat.eq_dec l k = n.
Proof. unfold count_values. induction l as [|d m IH] using rev_ind; [|rewrite fold_left_app; cbn [fold_left]].
  - cbn. split; [constructor|]. intros k n. split; [tauto|]. intros [H E]. lia.
  - destruct IH as (N & IH). destruct (counter_add_count d _ 0%nat N) as (N' & _). split; auto. intros k n.
    destruct (counter_add_count d _ k N) as (_ & ->). rewrite count_occ_app. cbn [count_occ].
    destruct (Nat.eq_dec d k) as [-> |Ne].
    + split.
      * intros [(_ & j & -> & [Hj|(-> & X)])|(X & _)]; [| |congruence].
        -- apply IH in Hj as (H1 & H2). split; [lia|]. rewrite H2. lia.
        -- split; [lia|]. replace (count_occ Nat.eq_dec m k) with 0%nat; [lia|].
           destruct (count_occ Nat.eq_dec m k) eqn:E; auto. exfalso. apply X. apply (in_map fst _ (k, S n)). apply IH. rewrite E. lia.
      * intros (H1 & H2). left. split; auto. exists (count_occ Nat.eq_dec m k). split; [lia|].
        destruct (count_occ Nat.eq_dec m k) eqn:E; [right|left; apply IH; lia]. split; auto.
        intros X. apply in_map_iff in X as ([k' n'] & E' & X). cbn in E'. subst k'. apply IH in X. lia.
    + rewrite IH. split; [intros [(-> & _)|(_ & H1 & H2)]; [congruence|lia]|]. intros (H1 & H2). right. split; [congruence|lia]. Qed.

Section Counting.
  Context {A W : Type} `{EqDec A}.
  Implicit Types (g : graph A W).

  Lemma count_occ_map (f : A -> nat) l k : count_occ Nat.eq_dec (map f l) k = length (filter (fun x => Nat.eqb (f x) k) l).
  Proof. induction l as [|x l IH]; cbn; auto. destruct (Nat.eq_dec (f x) k) as [E|E].
    - apply Nat.eqb_eq in E. rewrite E. cbn. congruence.
    - apply Nat.eqb_neq in E. rewrite E. auto. Qed.

  Lemma in_len (x : A) l : In x l -> (1 <= length l)%nat.
  Proof. destruct l; [intros []|cbn; lia]. Qed.
  (** what the degree count of a graph contains *)
  Lemma degree_count_spec g : NoDup (map fst (create_degree_count g)) /\
    forall k n, In (k, n) (create_degree_count g) <-> k <> 2%nat /\ (1 <= n)%nat /\ length (filter (fun x => Nat.eqb (degree g x) k) (g_nodes g)) = n.
  Proof. unfold create_degree_count. destruct (count_values_spec (map (degree g) (g_nodes g))) as (N & S). split.
    - clear S. revert N. generalize (count_values (map (degree g) (g_nodes g))) as c. induction c as [|[k n] c IH]; cbn; intros N; [constructor|]. inversion N as [|? ? N1 N2]; subst.
      destruct (negb (k =? 2)%nat); cbn; auto. constructor; auto. intros X. apply N1. apply in_map_iff in X as (y & E & X). apply filter_In in X as [X _]. rewrite <- E. apply in_map. auto.
    - intros k n. rewrite filter_In, S, count_occ_map. cbn. rewrite negb_true_iff, Nat.eqb_neq. tauto. Qed.

  Lemma sort_perm (c : counter) : Permutation (sort_by pair_leb c) c.
  Proof. apply sort_by_perm. Qed.

  Lemma name_closed c : shape_name c = ClosedLoop <-> c = [].
  Proof. unfold shape_name. pose proof (sort_perm c) as P. destruct (sort_by pair_leb c) as [|[k n] [|]] eqn:E.
    - apply Permutation_nil in P. tauto.
    - split; [destruct (_ && _); discriminate|intros ->; apply Permutation_sym, Permutation_nil in P; discriminate].
    - split; [discriminate|]. intros ->; apply Permutation_sym, Permutation_nil in P; discriminate. Qed.
  Lemma name_open c : shape_name c = OpenLine <-> c = [(1, 2)]%nat.
  Proof. unfold shape_name. pose proof (sort_perm c) as P. destruct (sort_by pair_leb c) as [|[k n] [|]] eqn:E.
    - apply Permutation_nil in P. subst. split; discriminate.
    - apply Permutation_length_1_inv in P. subst c. destruct (Nat.eqb_spec k 1), (Nat.eqb_spec n 2); cbn; subst; split; try discriminate; try congruence; auto.
    - split; [discriminate|]. intros ->. apply Permutation_sym, Permutation_length_1_inv in P. discriminate. Qed.

  Lemma degrees_closed g : create_degree_count g = [] <-> forall x, In x (g_nodes g) -> degree g x = 2%nat.
  Proof. destruct (degree_count_spec g) as (_ & S). split.
    - intros E x Hx. destruct (Nat.eq_dec (degree g x) 2) as [|Ne]; auto. exfalso.
      assert (X : In (degree g x, length (filter (fun y => Nat.eqb (degree g y) (degree g x)) (g_nodes g))) (create_degree_count g)).
      { apply S. split; auto. split; auto. assert (I : In x (filter (fun y => (degree g y =? degree g x)%nat) (g_nodes g))) by (apply filter_In; split; auto; apply Nat.eqb_refl). apply (in_len _ _ I). }
      rewrite E in X. destruct X.
    - intros F. destruct (create_degree_count g) as [|[k n] c] eqn:E; auto. exfalso. assert (X : In (k, n) ((k, n) :: c)) by (left; auto).
      apply S in X as (K & N & L). destruct (filter _ (g_nodes g)) as [|x l] eqn:Ef; [cbn in L; lia|].
      assert (I : In x (x :: l)) by (left; auto). rewrite <- Ef in I. apply filter_In in I as [I D]. apply Nat.eqb_eq in D. rewrite F in D; auto. Qed.

  Lemma degrees_open g : NoDup (g_nodes g) -> (create_degree_count g = [(1, 2)]%nat <->
    exists u v, u <> v /\ In u (g_nodes g) /\ In v (g_nodes g) /\ degree g u = 1%nat /\ degree g v = 1%nat /\
      forall x, In x (g_nodes g) -> x <> u -> x <> v -> degree g x = 2%nat).
  Proof. intros ND. destruct (degree_count_spec g) as (N & S). split.
    - intros E. assert (X : In (1, 2)%nat (create_degree_count g)) by (rewrite E; left; auto). apply S in X as (_ & _ & L).
      destruct (filter _ (g_nodes g)) as [|u [|v [|]]] eqn:Ef; cbn in L; try lia.
      assert (Nf : NoDup [u; v]) by (rewrite <- Ef; apply NoDup_filter; auto).
      assert (Iu : In u [u; v]) by (left; auto). assert (Iv : In v [u; v]) by (right; left; auto). rewrite <- Ef in Iu, Iv.
      apply filter_In in Iu as [Iu Du]. apply filter_In in Iv as [Iv Dv]. apply Nat.eqb_eq in Du, Dv.
      exists u, v. inversion Nf as [|? ? N1 _]; subst. split; [intros ->; apply N1; left; auto|]. split; auto. split; auto. split; auto. split; auto.
      intros x Hx Xu Xv. destruct (Nat.eq_dec (degree g x) 2) as [|D2]; auto. exfalso.
      assert (X : In (degree g x, length (filter (fun y => Nat.eqb (degree g y) (degree g x)) (g_nodes g))) (create_degree_count g)).
      { apply S. split; auto. split; auto. assert (I : In x (filter (fun y => (degree g y =? degree g x)%nat) (g_nodes g))) by (apply filter_In; split; auto; apply Nat.eqb_refl). apply (in_len _ _ I). }
      rewrite E in X. destruct X as [X|[]]. injection X as X1 _. assert (I : In x [u; v]). { rewrite <- Ef. apply filter_In. split; auto. apply Nat.eqb_eq. auto. }
      destruct I as [I|[I|[]]]; congruence.
    - intros (u & v & Ne & Iu & Iv & Du & Dv & F).
      assert (L : length (filter (fun x => Nat.eqb (degree g x) 1) (g_nodes g)) = 2%nat).
      { apply Nat.le_antisymm.
        - change 2%nat with (length [u; v]). apply NoDup_incl_length; [apply NoDup_filter; auto|]. intros x Hx. apply filter_In in Hx as [Hx D]. apply Nat.eqb_eq in D.
          destruct (eq_dec x u); [subst; left; auto|]. destruct (eq_dec x v); [subst; right; left; auto|]. rewrite F in D; auto. discriminate.
        - change 2%nat with (length [u; v]). apply NoDup_incl_length; [repeat constructor; cbn; intuition|]. intros x [<- |[<- |[]]]; apply filter_In; split; auto; apply Nat.eqb_eq; auto. }
      assert (X : In (1, 2)%nat (create_degree_count g)) by (apply S; split; [discriminate|]; split; [lia|auto]).
      assert (O1 : forall k n, In (k, n) (create_degree_count g) -> (k, n) = (1, 2)%nat).
      { intros k n I. apply S in I as (K & Nn & Lk). destruct (Nat.eq_dec k 1) as [-> |K1]; [f_equal; congruence|]. exfalso.
        destruct (filter (fun x => (degree g x =? k)%nat) (g_nodes g)) as [|x l] eqn:Ef; [cbn in Lk; lia|]. assert (I : In x (x :: l)) by (left; auto). rewrite <- Ef in I.
        apply filter_In in I as [I D]. apply Nat.eqb_eq in D. destruct (eq_dec x u); [subst; congruence|]. destruct (eq_dec x v); [subst; congruence|]. rewrite F in D; auto. }
      destruct (create_degree_count g) as [|[k n] [|[k' n'] c]]; [destruct X|f_equal; apply O1; left; auto|].
      exfalso. pose proof (O1 k n (or_introl eq_refl)) as E1. pose proof (O1 k' n' (or_intror (or_introl eq_refl))) as E2. cbn in N. inversion N as [|? ? N1 _]; subst. apply N1. left. congruence. Qed.

  (** ** Handshake *)
  Lemma sum_add (f h : A -> nat) l : list_sum (map (fun x => f x + h x)%nat l) = (list_sum (map f l) + list_sum (map h l))%nat.
  Proof. unfold list_sum. induction l; cbn in *; lia. Qed.
  Lemma sum_one (u : A) l : NoDup l -> In u l -> list_sum (map (fun x => if eqb u x then 1 else 0)%nat l) = 1%nat.
  Proof. induction 1 as [|x l Nx N IH]; intros I; [destruct I|]. cbn. destruct (eqb u x) eqn:E.
    - apply eqb_spec in E. subst. replace (list_sum _) with 0%nat; auto. symmetry. clear IH I N. induction l as [|y l IH]; cbn; auto.
      destruct (eqb x y) eqn:E; [apply eqb_spec in E; subst; exfalso; apply Nx; left; auto|]. apply IH. intros X. apply Nx. right. auto.
    - destruct I as [-> |I]; [|cbn; auto]. assert (eqb u u = true) by (apply eqb_spec; auto). congruence. Qed.
  Lemma handshake g : wf_graph g -> list_sum (map (degree g) (g_nodes g)) = (2 * length (g_edges g))%nat.
  Proof. intros [N E _]. unfold degree. assert (E' : forall e, In e (g_edges g) -> In (end1 e) (g_nodes g) /\ In (end2 e) (g_nodes g)) by (intros [[u v] w] I; apply (E u v w I)).
    clear E. induction (g_edges g) as [|e es IH].
    - cbn. induction (g_nodes g) as [|x l IHl]; cbn; auto. apply IHl. inversion N; auto. intros e [].
    - cbn [map length]. transitivity (list_sum (map (fun u => ((if eqb (end1 e) u then 1 else 0) + (if eqb (end2 e) u then 1 else 0)) +
        list_sum (map (fun e0 : A * A * W => (if eqb (end1 e0) u then 1 else 0) + (if eqb (end2 e0) u then 1 else 0)) es)) (g_nodes g)))%nat; [reflexivity|].
      rewrite sum_add. rewrite IH by (intros; apply E'; right; auto). destruct (E' e (or_introl eq_refl)) as [E1 E2]. rewrite sum_add, !sum_one; auto. lia. Qed.
  Lemma odd_count (f : A -> nat) l : Nat.even (length (filter (fun x => Nat.odd (f x)) l)) = Nat.even (list_sum (map f l)).
  Proof. induction l as [|x l IH]; auto. cbn [filter map]. change (list_sum (f x :: map f l)) with (f x + list_sum (map f l))%nat. rewrite Nat.even_add, <- IH. unfold Nat.odd. destruct (Nat.even (f x)) eqn:E; cbn [negb length].
    - destruct (Nat.even (length _)); auto.
    - rewrite Nat.even_succ. rewrite <- Nat.negb_even. destruct (Nat.even (length _)); auto. Qed.

  Lemma sum_const (f : A -> nat) c l : (forall x, In x l -> f x = c) -> list_sum (map f l) = (c * length l)%nat.
  Proof. unfold list_sum. induction l as [|x l IH]; cbn; intros F; [lia|]. rewrite F by auto. cbn in IH. rewrite IH by auto. lia. Qed.
  Lemma closed_edges g : wf_graph g -> (forall x, In x (g_nodes g) -> degree g x = 2%nat) -> length (g_edges g) = length (g_nodes g).
  Proof. intros Wf F. pose proof (handshake g Wf) as Hs. rewrite (sum_const _ 2) in Hs by auto. lia. Qed.
  Lemma open_edges g u v : wf_graph g -> u <> v -> In u (g_nodes g) -> In v (g_nodes g) -> degree g u = 1%nat -> degree g v = 1%nat ->
    (forall x, In x (g_nodes g) -> x <> u -> x <> v -> degree g x = 2%nat) -> S (length (g_edges g)) = length (g_nodes g).
  Proof. intros Wf Ne Iu Iv Du Dv F. pose proof (handshake g Wf) as Hs. destruct Wf as [N _ _].
    apply in_split in Iu as (l1 & l2 & Eq). rewrite Eq in *. assert (N' : NoDup (u :: l1 ++ l2)). { eapply Permutation_NoDup; [|exact N]. symmetry. apply Permutation_middle. }
    assert (Iv' : In v (l1 ++ l2)). { rewrite !in_app_iff in *. cbn in Iv. intuition congruence. }
    rewrite map_app, list_sum_app in Hs. change (list_sum (map (degree g) (u :: l2))) with (degree g u + list_sum (map (degree g) l2))%nat in Hs. rewrite Du in Hs. rewrite app_length in *. cbn [length].
    assert (Hs' : list_sum (map (degree g) (l1 ++ l2)) = (list_sum (map (degree g) l1) + list_sum (map (degree g) l2))%nat) by (rewrite map_app, list_sum_app; auto).
    assert (Ll : length (l1 ++ l2) = (length l1 + length l2)%nat) by apply app_length.
    assert (F' : forall x, In x (l1 ++ l2) -> x <> u -> x <> v -> degree g x = 2%nat). { intros x Hx. apply F. rewrite in_app_iff in *. cbn. tauto. }
    inversion N' as [|? ? N1 N2]; subst. clear Eq N N' F Iv. revert N1 N2 Iv' Hs' Ll F'. generalize (l1 ++ l2) as l. intros l N1 N2 Iv' Hs' Ll F'.
    apply in_split in Iv' as (m1 & m2 & ->). rewrite map_app, list_sum_app in Hs'. change (list_sum (map (degree g) (v :: m2))) with (degree g v + list_sum (map (degree g) m2))%nat in Hs'. rewrite Dv in Hs'. rewrite app_length in Ll. cbn [length] in Ll.
    apply NoDup_remove in N2 as [N2 N3]. rewrite (sum_const _ 2 m1), (sum_const _ 2 m2) in Hs'; [lia| |].
    - intros x Hx. apply F'; [rewrite in_app_iff; cbn; auto| |]; intros ->; [apply N1; rewrite in_app_iff; cbn; auto|apply N3; rewrite in_app_iff; auto].
    - intros x Hx. apply F'; [rewrite in_app_iff; cbn; auto| |]; intros ->; [apply N1; rewrite in_app_iff; cbn; auto|apply N3; rewrite in_app_iff; auto]. Qed.

  (** ** Degrees and neighbours *)
  Lemma degree_neighbors g u : loopless g -> degree g u = length (neighbors g u).
  Proof. intros Lo. unfold degree, neighbors. assert (L' : forall e, In e (g_edges g) -> end1 e <> end2 e).
    { intros [[a b] w] I X. cbn in X. subst. apply (Lo b). exists w. auto. } clear Lo.
    induction (g_edges g) as [|e es IH]; cbn; auto. rewrite app_length, <- IH by (intros; apply L'; right; auto). f_equal.
    specialize (L' e (or_introl eq_refl)). unfold other. destruct (eqb (end1 e) u) eqn:E1, (eqb (end2 e) u) eqn:E2; cbn; auto.
    apply eqb_spec in E1, E2. congruence. Qed.
  Lemma degree_le g x l : wf_graph g -> loopless g -> (degree g x <= length l)%nat -> NoDup l -> (forall y, In y l -> has_edge g x y) ->
    forall z, has_edge g x z -> In z l.
  Proof. intros Wf Lo D N F z Hz. rewrite degree_neighbors in D by auto. destruct (in_dec eq_dec z l) as [|Nz]; auto. exfalso.
    assert (I : incl (z :: l) (neighbors g x)). { intros y [<- |Hy]; apply in_neighbors; auto. }
    apply NoDup_incl_length in I; [cbn in I; lia|]. constructor; auto. Qed.
  Lemma degree_exact g x l : wf_graph g -> loopless g -> NoDup l -> (forall y, In y l <-> has_edge g x y) -> degree g x = length l.
  Proof. intros Wf Lo N F. rewrite degree_neighbors by auto. apply Permutation_length. apply NoDup_Permutation; auto using nodup_neighbors. intros y. rewrite in_neighbors, F. tauto. Qed.

  (** ** Maximal paths; the head of the list is the current end *)
  Definition trail g (p : list A) : Prop := NoDup p /\ forall l1 l2 u v, p = l1 ++ u :: v :: l2 -> has_edge g u v.
  Lemma trail_cons g x y p : trail g (x :: p) -> has_edge g y x -> ~ In y (x :: p) -> trail g (y :: x :: p).
  Proof. intros [N F] E Ny. split; [constructor; auto|]. intros [|a l1] l2 u v Eq; cbn in Eq.
    - injection Eq as <- <- _. auto.
    - injection Eq as _ Eq. apply (F l1 l2 u v). auto. Qed.
  Lemma maximal g : wf_graph g -> forall n p x, (length (g_nodes g) - length (x :: p) <= n)%nat -> trail g (x :: p) -> incl (x :: p) (g_nodes g) ->
    exists y q, trail g (y :: q) /\ incl (y :: q) (g_nodes g) /\ last (y :: q) y = last (x :: p) x /\ forall z, has_edge g y z -> In z (y :: q).
  Proof. intros Wf. induction n as [|n IH]; intros p x L T I.
    - exists x, p. split; auto. split; auto. split; [reflexivity|]. intros z Hz. destruct (in_dec eq_dec z (x :: p)) as [|Nz]; auto. exfalso.
      assert (X : incl (z :: x :: p) (g_nodes g)). { intros y [<- |Hy]; auto. apply (wf_ends Wf) in Hz. apply Hz. }
      apply NoDup_incl_length in X; [cbn in X, L; lia|]. constructor; auto. apply T.
    - destruct (find (fun z => negb (mem z (x :: p))) (neighbors g x)) as [z|] eqn:E.
      + apply find_some in E as [Hz Nz]. apply in_neighbors in Hz. apply negb_true_iff, mem_false in Nz.
        destruct (IH (x :: p) z) as (y & q & T' & I' & La & M).
        * cbn in *. lia.
        * apply trail_cons; auto. apply has_edge_sym. auto.
        * intros w [<- |Hw]; auto. apply (wf_ends Wf) in Hz. apply Hz.
        * exists y, q. split; auto. split; auto. split; auto. rewrite La. cbn [last]. destruct p; auto. apply last_default.
      + exists x, p. split; auto. split; auto. split; auto. intros z Hz. apply in_neighbors in Hz. apply (find_none _ _ E) in Hz. apply negb_false_iff, mem_spec in Hz. auto. Qed.
End Counting.
