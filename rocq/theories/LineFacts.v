(** Connected graphs with the degrees of a line or ring are lines and rings. *)
From Verif Require Import Base BaseFacts Graph SpecGraph GraphFacts GraphComponents Dimension Shape SpecShape ShapeFacts.
Open Scope list_scope.

Section Lists.
  Context {A : Type}.
  Implicit Types (p l : list A).

  Lemma split_unique l1 : forall (x : A) l2 l3 l4, NoDup (l1 ++ x :: l2) -> l1 ++ x :: l2 = l3 ++ x :: l4 -> l1 = l3 /\ l2 = l4.
  Proof. induction l1 as [|a l1 IH]; intros x l2 [|b l3] l4 N E; cbn in *.
    - injection E as ->. auto.
    - injection E as <- ->. inversion N as [|? ? N1 _]; subst. exfalso. apply N1. apply in_elt.
    - injection E as -> <-. inversion N as [|? ? N1 _]; subst. exfalso. apply N1. apply in_elt.
    - injection E as <- E. inversion N as [|? ? _ N2]; subst. destruct (IH _ _ _ _ N2 E) as [-> ->]. auto. Qed.
  Lemma next_sym p u v : next_in p u v -> next_in p v u.
  Proof. intros (l1 & l2 & [E|E]); exists l1, l2; auto. Qed.
  Lemma ends_sym p u v : ends_of p u v -> ends_of p v u.
  Proof. intros (m & [E|E]); exists m; auto. Qed.
  Lemma snoc_app l1 (a b : A) l2 : l1 ++ a :: b :: l2 = (l1 ++ [a]) ++ b :: l2.
  Proof. rewrite <- app_assoc. reflexivity. Qed.
  Lemma next_first x a l y : NoDup (x :: a :: l) -> next_in (x :: a :: l) x y -> y = a.
  Proof. intros N (l1 & l2 & [E|E]).
    - apply (split_unique []) in E as [_ E]; auto. congruence.
    - rewrite snoc_app in E. apply (split_unique []) in E as [E _]; auto. destruct l1; discriminate. Qed.
  Lemma next_last l1 a x y : NoDup (l1 ++ [a; x]) -> next_in (l1 ++ [a; x]) x y -> y = a.
  Proof. intros N (l3 & l4 & [E|E]).
    - rewrite snoc_app in E, N. apply split_unique in E as [_ E]; auto. discriminate.
    - rewrite (snoc_app l3), snoc_app in E. rewrite snoc_app in N. apply split_unique in E as [E _]; auto. apply app_inj_tail in E as [_ E]. auto. Qed.
  Lemma next_mid l1 a x b l2 y : NoDup (l1 ++ a :: x :: b :: l2) -> next_in (l1 ++ a :: x :: b :: l2) x y -> y = a \/ y = b.
  Proof. intros N (l3 & l4 & [E|E]).
    - rewrite snoc_app in E, N. apply split_unique in E as [_ E]; auto. injection E. auto.
    - rewrite (snoc_app l3), snoc_app in E. rewrite snoc_app in N. apply split_unique in E as [E _]; auto. apply app_inj_tail in E as [_ E]. auto. Qed.
  Lemma position p (y : A) : In y p -> (exists l, p = y :: l) \/ (exists l1 a, p = l1 ++ [a; y]) \/ (exists l1 a b l2, p = l1 ++ a :: y :: b :: l2).
  Proof. intros I. apply in_split in I as (l1 & l2 & ->). destruct l1 as [|c l1]; [left; exists l2; auto|right].
    assert (X : c :: l1 <> []) by discriminate. destruct (exists_last X) as (l & a & ->). rewrite <- app_assoc. cbn. destruct l2 as [|b l2]; [left; exists l, a; auto|right; exists l, a, b, l2; auto]. Qed.
  Lemma next_loop p (u : A) : NoDup p -> ~ next_in p u u.
  Proof. intros N (l1 & l2 & E). assert (E' : p = l1 ++ u :: u :: l2) by tauto. subst p. apply NoDup_remove_2 in N. apply N. rewrite in_app_iff. cbn. auto. Qed.
  Lemma ends_loop p (u : A) : NoDup p -> ~ ends_of p u u.
  Proof. intros N (m & E). assert (E' : p = u :: m ++ [u]) by tauto. subst p. inversion N as [|? ? N1 _]; subst. apply N1. rewrite in_app_iff. cbn. auto. Qed.
End Lists.

Section Lines.
  Context {A W : Type} `{EqDec A}.
  Variable g : graph A W.
  Hypothesis Wf : wf_graph g.

  Lemma chain_linked (R : A -> A -> Prop) q : forall x, (forall l1 l2 u v, x :: q = l1 ++ u :: v :: l2 -> R u v) -> forall y, In y (x :: q) -> linked R x y.
  Proof. induction q as [|a q IH]; intros x F y Hy.
    - destruct Hy as [<- |[]]. apply linked_refl.
    - destruct Hy as [<- |Hy]; [apply linked_refl|]. apply linked_step with a; [apply (F [] q); auto|]. apply IH; auto.
      intros l1 l2 u v E. apply (F (x :: l1) l2). rewrite E. auto. Qed.

  Section Forward.
    Hypothesis Lo : loopless g.
    Hypothesis Co : connected g.

    Lemma trail_next p u v : trail g p -> next_in p u v -> has_edge g u v.
    Proof. intros [_ F] (l1 & l2 & [E|E]); [eapply F; eauto|apply has_edge_sym; eapply F; eauto]. Qed.
    Lemma mid_edges l1 a y b l2 z : trail g (l1 ++ a :: y :: b :: l2) -> (degree g y <= 2)%nat -> has_edge g y z -> z = a \/ z = b.
    Proof. intros T D E. assert (I : In z [a; b]); [|cbn in I; intuition].
      apply (degree_le g y [a; b] Wf Lo); auto.
      - assert (N : NoDup (l1 ++ a :: y :: b :: l2)) by apply T. constructor; [|repeat constructor; auto]. intros [-> |[]].
        apply NoDup_remove_2 in N. apply N. rewrite in_app_iff. cbn. auto.
      - intros w [<- |[<- |[]]]; apply (trail_next _ _ _ T).
        + exists l1, (b :: l2). auto.
        + exists (l1 ++ [a]), l2. left. apply snoc_app. Qed.
    Lemma last_edges l1 a y z : trail g (l1 ++ [a; y]) -> (degree g y <= 1)%nat -> has_edge g y z -> z = a.
    Proof. intros T D E. assert (I : In z [a]); [|cbn in I; intuition]. apply (degree_le g y [a] Wf Lo); auto.
      - repeat constructor. auto.
      - intros w [<- |[]]. apply (trail_next _ _ _ T). exists l1, []. auto. Qed.

    (** a list that contains with a node its neighbours contains all nodes *)
    Lemma all_nodes p x : In x p -> incl p (g_nodes g) -> (forall y z, In y p -> has_edge g y z -> In z p) -> forall y, In y p <-> In y (g_nodes g).
    Proof. intros Hx I Cl y. split; [apply I|]. intros Hy. apply (linked_closed (R := has_edge g) (fun z => In z p) (u := x) (v := y)); auto. Qed.
    Lemma next_member p (u v : A) : next_in p u v -> In v p.
    Proof. intros (l1 & l2 & [-> | ->]); rewrite in_app_iff; cbn; auto. Qed.

    Lemma open_is_line u v : u <> v -> In u (g_nodes g) -> In v (g_nodes g) -> degree g u = 1%nat -> degree g v = 1%nat ->
      (forall x, In x (g_nodes g) -> x <> u -> x <> v -> degree g x = 2%nat) -> exists p, is_line g p.
    Proof. intros Ne Iu Iv Du Dv F.
      assert (D2 : forall x, In x (g_nodes g) -> (degree g x <= 2)%nat).
      { intros x Hx. destruct (eq_dec x u); [subst; lia|]. destruct (eq_dec x v); [subst; lia|]. rewrite F; auto. }
      destruct (maximal g Wf (length (g_nodes g)) [] u) as (y0 & q & T & I & La & M).
      { lia. } { split; [repeat constructor; auto|]. intros [|a [|b l1]] l2 x y E; discriminate. } { intros x [<- |[]]; auto. }
      change (last [u] u) with u in La. assert (N : NoDup (y0 :: q)) by apply T.
      assert (NH : forall y z, In y q -> has_edge g y z -> next_in (y0 :: q) y z).
      { intros y z Hy E. destruct (position (y0 :: q) y (or_intror Hy)) as [(l & El)|[(l1 & a & El)|(l1 & a & b & l2 & El)]].
        - injection El as -> _. inversion N; contradiction.
        - rewrite El in *. assert (y = u). { rewrite <- La, snoc_app, last_last. auto. } subst y.
          apply (last_edges l1 a u z T) in E; [|lia]. subst z. exists l1, []. auto.
        - assert (Hn : In y (g_nodes g)) by (apply I; right; auto). rewrite El in *. apply mid_edges with (1 := T) in E; auto. destruct E as [-> | ->].
          + exists l1, (b :: l2). auto.
          + exists (l1 ++ [a]), l2. left. apply snoc_app. }
      assert (HH : forall z, has_edge g y0 z -> next_in (y0 :: q) y0 z).
      { intros z E. destruct (M z E) as [<- |Hz]; [exfalso; eapply Lo; eauto|]. apply next_sym. apply NH; auto. apply has_edge_sym. auto. }
      assert (All : forall y z, In y (y0 :: q) -> has_edge g y z -> next_in (y0 :: q) y z) by (intros y z [<- |Hy]; auto).
      assert (Nodes : forall y, In y (y0 :: q) <-> In y (g_nodes g)).
      { apply all_nodes with y0; auto; [left; auto|]. intros y z Hy E. eapply next_member; eauto. }
      exists (y0 :: q). split; auto. split.
      { destruct q as [|a q]; [|cbn; lia]. exfalso. apply Nodes in Iu, Iv. destruct Iu as [<- |[]]. destruct Iv as [<- |[]]. auto. }
      split; auto. intros x y. split; [|apply trail_next; auto]. intros E. apply All; auto. apply Nodes. apply (wf_ends Wf) in E. tauto. Qed.

    Lemma closed_is_ring x0 : In x0 (g_nodes g) -> (forall x, In x (g_nodes g) -> degree g x = 2%nat) -> exists p, is_ring g p.
    Proof. intros I0 D. destruct (maximal g Wf (length (g_nodes g)) [] x0) as (y0 & q & T & I & _ & M).
      { lia. } { split; [repeat constructor; auto|]. intros [|a [|b l1]] l2 x y E; discriminate. } { intros x [<- |[]]; auto. }
      assert (N : NoDup (y0 :: q)) by apply T. assert (D0 : degree g y0 = 2%nat) by (apply D, I; left; auto).
      assert (Nb := degree_neighbors g y0 Lo). rewrite D0 in Nb. pose proof (nodup_neighbors Wf y0) as Nn.
      assert (Hq : forall z, has_edge g y0 z -> In z q). { intros z E. destruct (M z E) as [<- |]; auto. exfalso. eapply Lo; eauto. }
      destruct q as [|a l].
      { exfalso. destruct (neighbors g y0) as [|z nb] eqn:En; [discriminate|]. apply (Hq z). apply in_neighbors. rewrite En. left. auto. }
      assert (Ha : has_edge g y0 a) by (apply (trail_next _ _ _ T); exists [], l; auto).
      assert (Hz : exists z, has_edge g y0 z /\ z <> a).
      { destruct (neighbors g y0) as [|z1 [|z2 [|]]] eqn:En; try discriminate. inversion Nn as [|? ? N1 _]; subst.
        destruct (eq_dec z1 a) as [-> |]; [exists z2|exists z1]; (split; [apply in_neighbors; rewrite En; cbn; auto|auto]). intros ->. apply N1. left. auto. }
      destruct Hz as (z & Ez & Nz). assert (Iz : In z l). { destruct (Hq z Ez) as [|]; auto. congruence. }
      destruct (position (y0 :: a :: l) z (or_intror (or_intror Iz))) as [(l' & El)|[(l1 & c & El)|(l1 & c & b & l2 & El)]].
      { injection El as -> _. exfalso. eapply Lo; eauto. }
      2: { exfalso. apply Nz. apply (next_first y0 a l z N). apply next_sym. rewrite El in T |- *. apply has_edge_sym in Ez. apply mid_edges with (1 := T) in Ez.
           - destruct Ez as [-> | ->]; [exists l1, (b :: l2); auto|exists (l1 ++ [c]), l2; left; apply snoc_app].
           - rewrite D; auto. apply I. rewrite El. rewrite in_app_iff. cbn. auto. }
      destruct l1 as [|y1 l1]. { cbn in El. injection El as _ Ea El. subst. destruct Iz. }
      cbn in El. injection El as <- El. assert (Cy : c <> y0). { intros ->. inversion N as [|? ? N1 _]; subst. apply N1. rewrite El. rewrite in_app_iff. cbn. auto. }
      assert (En : ends_of (y0 :: a :: l) y0 z). { exists (l1 ++ [c]). left. rewrite El. rewrite <- app_assoc. auto. }
      assert (All : forall y w, In y (y0 :: a :: l) -> has_edge g y w -> next_in (y0 :: a :: l) y w \/ ends_of (y0 :: a :: l) y w).
      { intros y w Hy E. assert (Hn : In y (g_nodes g)) by (apply I; auto). destruct (position (y0 :: a :: l) y Hy) as [(l' & El')|[(l1' & c' & El')|(l1' & c' & b' & l2' & El')]].
        - injection El' as <- _. assert (Iw : In w [a; z]).
          { apply (degree_le g y0 [a; z] Wf Lo); auto; [rewrite D0; auto|repeat constructor; cbn; intuition|]. intros x [<- |[<- |[]]]; auto. }
          destruct Iw as [<- |[<- |[]]]; auto. left. exists [], l. auto.
        - assert (Ey : y = z /\ c' = c).
          { assert (X : (y0 :: l1) ++ [c; z] = l1' ++ [c'; y]) by (rewrite <- El'; cbn; rewrite El; auto).
            change ([c; z]) with ([c] ++ [z]) in X. change ([c'; y]) with ([c'] ++ [y]) in X. rewrite !app_assoc in X. apply app_inj_tail in X as [X ->]. apply app_inj_tail in X as [_ ->]. auto. }
          destruct Ey as [-> ->]. assert (Iw : In w [c; y0]).
          { apply (degree_le g z [c; y0] Wf Lo); auto; [rewrite D; auto|repeat constructor; cbn; intuition|]. intros x [<- |[<- |[]]]; [|apply has_edge_sym; auto].
            apply has_edge_sym. apply (trail_next _ _ _ T). exists (y0 :: l1), []. left. cbn. rewrite El. auto. }
          destruct Iw as [<- |[<- |[]]]; [left; apply next_sym; exists (y0 :: l1), []; left; cbn; rewrite El; auto|right; apply ends_sym; auto].
        - left. rewrite El' in T |- *. apply mid_edges with (1 := T) in E; [|rewrite D; auto]. destruct E as [-> | ->]; [exists l1', (b' :: l2'); auto|exists (l1' ++ [c']), l2'; left; apply snoc_app]. }
      assert (Mem : forall (y w : A), ends_of (y0 :: a :: l) y w -> In w (y0 :: a :: l)).
      { intros y w (m & [E|E]); rewrite E; [right; rewrite in_app_iff; cbn; auto|left; auto]. }
      assert (Nodes : forall y, In y (y0 :: a :: l) <-> In y (g_nodes g)).
      { apply all_nodes with y0; auto; [left; auto|]. intros y w Hy E. destruct (All y w Hy E); [eapply next_member; eauto|eapply Mem; eauto]. }
      exists (y0 :: a :: l). split; auto. split; [destruct l; [destruct Iz|cbn; lia]|]. split; auto. intros x y. split.
      - intros E. apply All; auto. apply Nodes. apply (wf_ends Wf) in E. tauto.
      - intros [X|(m & X)]; [apply (trail_next _ _ _ T); auto|]. assert (E : (x = y0 /\ y = z) \/ (x = z /\ y = y0)); [|destruct E as [[-> ->]|[-> ->]]; auto; apply has_edge_sym; auto].
        destruct En as (m' & [En|En]); [|exfalso; injection En as -> _; eapply Lo; eauto].
        destruct X as [X|X]; rewrite En in X; injection X as <- X; apply app_inj_tail in X as [_ ->]; auto. Qed.
  End Forward.

  Lemma line_loopless p : is_line g p -> loopless g.
  Proof. intros (N & _ & _ & E) u X. apply E in X. eapply next_loop; eauto. Qed.
  Lemma ring_loopless p : is_ring g p -> loopless g.
  Proof. intros (N & _ & _ & E) u X. apply E in X as [X|X]; [eapply next_loop; eauto|eapply ends_loop; eauto]. Qed.
  Lemma chain_connected x q : (forall y, In y (x :: q) <-> In y (g_nodes g)) -> (forall u v, next_in (x :: q) u v -> has_edge g u v) -> connected g.
  Proof. intros Nd E u v Hu Hv. assert (L : forall y, In y (x :: q) -> linked (has_edge g) x y). { apply chain_linked. intros l1 l2 a b Eq. apply E. exists l1, l2. auto. }
    apply linked_trans with x; [apply linked_sym; [apply has_edge_sym|]|]; apply L; apply Nd; auto. Qed.

  Lemma line_degrees p : is_line g p -> connected g /\ exists u v, u <> v /\ In u (g_nodes g) /\ In v (g_nodes g) /\ degree g u = 1%nat /\ degree g v = 1%nat /\
      forall x, In x (g_nodes g) -> x <> u -> x <> v -> degree g x = 2%nat.
  Proof. intros HL. pose proof (line_loopless p HL) as Lo. destruct HL as (N & L & Nd & E). destruct p as [|u [|a l]]; cbn in L; try lia.
    split; [apply (chain_connected u (a :: l)); auto; intros; apply E; auto|].
    assert (X : a :: l <> []) by discriminate. destruct (exists_last X) as (m & v & Em). exists u, v. rewrite Em in *.
    assert (Nu : ~ In u (m ++ [v])) by (inversion N; auto). split; [intros ->; apply Nu; rewrite in_app_iff; cbn; auto|].
    split; [apply Nd; left; auto|]. split; [apply Nd; right; rewrite in_app_iff; cbn; auto|]. split; [|split].
    - apply (degree_exact g u [a] Wf Lo); [repeat constructor; auto|]. intros y. rewrite E. rewrite <- Em in *. split.
      + intros [<- |[]]. exists [], l. auto.
      + intros Hy. apply next_first in Hy; auto. subst. left. auto.
    - destruct m as [|b m']. { cbn in Em. apply (degree_exact g v [u] Wf Lo); [repeat constructor; auto|]. intros y. rewrite E. cbn. split.
        + intros [<- |[]]. exists [], []. auto.
        + intros Hy. apply (next_last [] u v y) in Hy; auto. }
      assert (Y : b :: m' <> []) by discriminate. destruct (exists_last Y) as (m2 & c & Em2). rewrite Em2 in *.
      assert (Eq : u :: (m2 ++ [c]) ++ [v] = (u :: m2) ++ [c; v]) by (cbn; rewrite <- app_assoc; auto). rewrite Eq in *.
      apply (degree_exact g v [c] Wf Lo); [repeat constructor; auto|]. intros y. rewrite E. split.
      + intros [<- |[]]. exists (u :: m2), []. auto.
      + intros Hy. apply next_last in Hy; auto. subst. left. auto.
    - intros x Hx Xu Xv. apply Nd in Hx. destruct (position _ x Hx) as [(l' & El)|[(l1 & c & El)|(l1 & c & b & l2 & El)]].
      + injection El as -> _. congruence.
      + exfalso. apply Xv. assert (Z : (u :: m) ++ [v] = (l1 ++ [c]) ++ [x]) by (rewrite <- app_assoc; exact El). apply app_inj_tail in Z as [_ Z]. auto.
      + rewrite El in *. apply (degree_exact g x [c; b] Wf Lo).
        * constructor; [|repeat constructor; auto]. intros [-> |[]]. apply NoDup_remove_2 in N. apply N. rewrite in_app_iff. cbn. auto.
        * intros y. rewrite E. split.
          -- intros [<- |[<- |[]]]; [apply next_sym; exists l1, (b :: l2); auto|exists (l1 ++ [c]), l2; left; apply snoc_app].
          -- intros Hy. apply next_mid in Hy; auto. cbn. intuition. Qed.

  Lemma ring_degrees p : is_ring g p -> connected g /\ g_nodes g <> [] /\ forall x, In x (g_nodes g) -> degree g x = 2%nat.
  Proof. intros HL. pose proof (ring_loopless p HL) as Lo. destruct HL as (N & L & Nd & E). destruct p as [|u [|a l]]; cbn in L; try lia.
    split; [apply (chain_connected u (a :: l)); auto; intros; apply E; auto|].
    split. { intros X. assert (I : In u (u :: a :: l)) by (left; auto). apply Nd in I. rewrite X in I. destruct I. }
    assert (X : l <> []) by (destruct l; [cbn in L; lia|discriminate]). destruct (exists_last X) as (m & v & Em). subst l.
    assert (Ends : forall x y, ends_of (u :: a :: m ++ [v]) x y <-> (x = u /\ y = v) \/ (x = v /\ y = u)).
    { intros x y. split.
      - intros (k & [Z|Z]); injection Z as <- Z; change (a :: m ++ [v]) with ((a :: m) ++ [v]) in Z; apply app_inj_tail in Z as [_ ->]; auto.
      - intros [[-> ->]|[-> ->]]; exists (a :: m); auto. }
    assert (Nu : ~ In u (a :: m ++ [v])) by (inversion N; auto). assert (Na : ~ In a (m ++ [v])) by (inversion N as [|? ? _ N2]; inversion N2; auto).
    intros x Hx. apply Nd in Hx. destruct (position _ x Hx) as [(l' & El)|[(l1 & c & El)|(l1 & c & b & l2 & El)]].
    - injection El as <- _. apply (degree_exact g u [a; v] Wf Lo).
      + constructor; [|repeat constructor; auto]. intros [-> |[]]. apply Na. rewrite in_app_iff. cbn. auto.
      + intros y. rewrite E, Ends. split.
        * intros [<- |[<- |[]]]; [left; exists [], (m ++ [v]); auto|auto].
        * intros [Hy|[[_ ->]|[Z _]]]; [apply next_first in Hy; auto; subst; left; auto|right; left; auto|].
          exfalso. apply Nu. rewrite Z. right. rewrite in_app_iff. cbn. auto.
    - assert (Z : (u :: a :: m) ++ [v] = (l1 ++ [c]) ++ [x]) by (rewrite <- app_assoc; exact El). apply app_inj_tail in Z as [Z <-].
      assert (Cu : c <> u). { intros ->. destruct l1 as [|b l1]; cbn in Z; [discriminate|]. injection Z as <- Z. apply Nu. right. 
        assert (I : In u (a :: m)) by (rewrite Z, in_app_iff; cbn; auto). destruct I as [-> |I]; [|rewrite in_app_iff; auto]. exfalso. apply Nu. left. auto. }
      assert (Vu : v <> u). { intros ->. apply Nu. right. rewrite in_app_iff. cbn. auto. }
      apply (degree_exact g v [c; u] Wf Lo).
      + constructor; [intros [Y|[]]; congruence|repeat constructor; auto].
      + intros y. rewrite E, Ends. rewrite El in *. split.
        * intros [<- |[<- |[]]]; [left; exists l1, []; auto|auto].
        * intros [Hy|[[Y _]|[_ ->]]]; [apply next_last in Hy; auto; subst; left; auto|congruence|right; left; auto].
    - assert (Xu : x <> u). { intros ->. destruct l1 as [|b' l1]; cbn in El; injection El as <- El; apply Nu; rewrite El; [left; auto|]. rewrite in_app_iff. cbn. auto. }
      assert (Xv : x <> v). { intros ->. assert (Z : (u :: a :: m) ++ v :: [] = (l1 ++ [c]) ++ v :: b :: l2) by (rewrite <- app_assoc; exact El).
        apply split_unique in Z as [_ Z]; [discriminate|exact N]. }
      apply (degree_exact g x [c; b] Wf Lo).
      + rewrite El in N. constructor; [|repeat constructor; auto]. intros [-> |[]]. apply NoDup_remove_2 in N. apply N. rewrite in_app_iff. cbn. auto.
      + intros y. rewrite E, Ends. rewrite El in *. split.
        * intros [<- |[<- |[]]]; left; [apply next_sym; exists l1, (b :: l2); auto|exists (l1 ++ [c]), l2; left; apply snoc_app].
        * intros [Hy|[[Y _]|[Y _]]]; [apply next_mid in Hy; auto; cbn; intuition|congruence|congruence]. Qed.
End Lines.
