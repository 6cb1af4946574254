(** The removal of duplicate paths. *)
From Verif Require Import Base BaseFacts CoordSys CoordSysR Graph SpecGraph GraphFacts Paths SpecPath SpecCluster PathFacts ShortestPathFacts Dimension DomSet SpecDomSet DomSetFacts.
From Coq Require Import Reals Psatz.
From Coq Require Import Lra.
Open Scope list_scope.

Lemma follows_imp {A} (P Q : A -> A -> Prop) : (forall a b, P a b <-> Q a b) -> forall u p, follows P u p -> follows Q u p.
Proof. intros E u p. revert u. induction p as [|x p IH]; intros u F; cbn; auto. destruct F. split; auto. apply E; auto. Qed.

Section Dup.
  Variable spath : graph point R -> point -> point -> option (list point).
  Hypothesis Sp : good_spath spath.
  Variable h0 : dgraph.
  Hypothesis W0 : wf_graph h0.
  (** all edges have a weight that is not negative *)
  Hypothesis Nn : forall u v a, In (u, v, a) (g_edges h0) -> exists w, snd a = Some w /\ (0 <= w)%R.
  Set Default Proof Using "All".
  Notation om := (edge_weight (weight_graph h0)).
  Record part (h : dgraph) : Prop := { pt_wf : wf_graph h; pt_nodes : g_nodes h = g_nodes h0; pt_edges : incl (g_edges h) (g_edges h0) }.
  Lemma wg_wf h : part h -> wf_graph (weight_graph h) /\ nonneg_weights (weight_graph h).
  Proof. intros P. split; [apply wf_map_attr, P|]. intros e I. cbn in I. apply in_map_iff in I as ([[u v] a] & <- & I). apply (pt_edges h P) in I. destruct (Nn u v a I) as (w & E & L). cbn [snd]. rewrite E. auto. Qed.
  Lemma part0 : part h0.
  Proof. constructor; auto. apply incl_refl. Qed.
  Lemma has_wg h u v : has_edge (weight_graph h) u v <-> has_edge h u v.
  Proof. apply map_attr_edges. Qed.
  Lemma part_has h u v : part h -> has_edge h u v -> has_edge h0 u v.
  Proof. intros P (a & [I|I]); exists a; [left|right]; apply (pt_edges h P); auto. Qed.
  Lemma ew_sym (g : graph point R) u v : edge_weight g u v = edge_weight g v u.
  Proof. unfold edge_weight, edge_attr. rewrite (find_ext (joins u v) (joins v u)); auto. intros e. apply joins_sym. Qed.
  Lemma ew_in h u v a : part h -> In (u, v, a) (g_edges h) -> exists w, snd a = Some w /\ edge_weight (weight_graph h) u v = w /\ om u v = w.
  Proof. intros P I. destruct (Nn u v a (pt_edges h P _ I)) as (w & E & _). exists w. split; auto. unfold edge_weight. split.
    - rewrite (attr_in (weight_graph h) u v w); [reflexivity|apply wg_wf; auto|]. apply in_map_iff. exists (u, v, a). cbn. rewrite E. auto.
    - rewrite (attr_in (weight_graph h0) u v w); [reflexivity|apply (wg_wf h0 part0)|]. apply in_map_iff. exists (u, v, a). cbn. rewrite E. split; auto. apply (pt_edges h P); auto. Qed.
  Lemma ew_same h u v : part h -> has_edge h u v -> edge_weight (weight_graph h) u v = om u v.
  Proof. intros P (a & [I|I]); destruct (ew_in h _ _ a P I) as (w & _ & E1 & E2); [congruence|]. rewrite (ew_sym _ u v), (ew_sym (weight_graph h0) u v). congruence. Qed.
  Lemma same h u q : part h -> follows (has_edge h) u q -> wsum (edge_weight (weight_graph h)) u q = wsum om u q.
  Proof. intros P. revert u. induction q as [|x q IH]; intros u F; cbn [wsum]; auto. destruct F as (Fx & F). rewrite (ew_same h u x P Fx), IH; auto. Qed.
  Lemma om_nn u v : (0 <= om u v)%R.
  Proof. apply edge_weight_nonneg. apply (wg_wf h0 part0). Qed.

  (** paths with their weight *)
  Definition route (h : dgraph) (a b : point) (l : R) : Prop := exists q, follows (has_edge h) a q /\ last (a :: q) a = b /\ (wsum om a q <= l)%R.
  Lemma route_step h a x b l : has_edge h a x -> route h x b l -> route h a b (om a x + l).
  Proof. intros E (q & F & L & T). exists (x :: q). split; [split; auto|]. split; [rewrite last_cons, (last_default x q a x); auto|]. cbn [wsum]. lra. Qed.
  Lemma route_refl h a : route h a a 0.
  Proof. exists []. cbn. split; auto. split; auto. lra. Qed.
  Lemma route_le h a b l m : route h a b l -> (l <= m)%R -> route h a b m.
  Proof. intros (q & F & L & T) H. exists q. split; auto. split; auto. lra. Qed.
  Lemma route_trans h a b d l m : route h a b l -> route h b d m -> route h a d (l + m).
  Proof. intros (q & F & L & T) W. apply (route_le h _ _ (wsum om a q + m)); [|lra]. clear T. revert a F L. induction q as [|x q IH]; intros a F L.
    - cbn in L. subst b. cbn [wsum]. apply (route_le h _ _ m); auto. lra.
    - destruct F as (Fx & F). apply (route_le h _ _ (om a x + (wsum om x q + m))); [|cbn [wsum]; lra]. apply route_step; auto. apply IH; auto. rewrite last_cons in L. rewrite (last_default x q x a). auto. Qed.
  Lemma route_sym h a b l : route h a b l -> route h b a l.
  Proof. intros (q & F & L & T). apply (route_le h _ _ (wsum om a q)); auto. clear T. revert a F L. induction q as [|x q IH]; intros a F L.
    - cbn in L. subst b. cbn. apply route_refl.
    - destruct F as (Fx & F). cbn [wsum]. rewrite Rplus_comm. apply route_trans with x; [apply IH; auto; rewrite last_cons in L; rewrite (last_default x q x a); auto|].
      apply (route_le h _ _ (om x a + 0)); [|rewrite (ew_sym _ x a); lra]. apply route_step; [apply has_edge_sym; auto|apply route_refl]. Qed.
  Lemma route_along h h' : (forall x y, has_edge h x y -> route h' x y (om x y)) -> forall a b l, route h a b l -> route h' a b l.
  Proof. intros E a b l (q & F & L & T). apply (route_le h' _ _ (wsum om a q)); auto. clear T. revert a F L. induction q as [|x q IH]; intros a F L.
    - cbn in L. subst b. apply route_refl.
    - destruct F as (Fx & F). cbn [wsum]. apply route_trans with x; [apply E; auto|]. apply IH; auto. rewrite last_cons in L. rewrite (last_default x q x a). auto. Qed.

  Lemma detour_follows (h : dgraph) u v q : follows (has_edge h) u q -> last (u :: q) u = v -> NoDup (u :: q) -> (2 < length (u :: q))%nat -> follows (has_edge (remove_edge h u v)) u q.
  Proof. intros F L Nd Len. destruct q as [|x q]; [cbn in Len; lia|]. destruct q as [|y q]; [cbn in Len; lia|].
    assert (Nxu : x <> u /\ ~ In u (y :: q)) by (inversion Nd as [|? ? X _]; split; intros Z; apply X; [left; auto|right; auto]).
    assert (Nxv : x <> v). { intros ->. rewrite !last_cons in L. pose proof (last_in q y u) as Z. rewrite L in Z. inversion Nd as [|? ? _ N2]. inversion N2; auto. }
    destruct F as (Fx & F). split.
    - apply remove_edge_edges. split; auto. intros [(_ & X)|(X & Y)]; [tauto|]. subst. tauto.
    - assert (Nu : ~ In u (x :: y :: q)) by (intros [X|X]; tauto). clear - F Nu. remember (y :: q) as l. clear Heql. revert x F Nu. induction l as [|z l IH]; intros x F Nu; cbn; auto. destruct F as (Fz & F). split.
      + apply remove_edge_edges. split; auto. intros [(-> & _)|(_ & ->)]; apply Nu; cbn; auto.
      + apply IH; auto. intros I. apply Nu. right; auto. Qed.

  Definition lightest (h : dgraph) (e : point * point * (R * option R)) : Prop := end1 e <> end2 e -> forall l, route h (end1 e) (end2 e) l -> (weight_of e <= l)%R.
  Lemma loop_ok es : forall h, part h -> (forall u v a, In (u, v, a) es -> In (u, v, a) (g_edges h0) /\ exists l, route h u v l) ->
    exists r, remove_duplicates spath es h = Ok r /\ part r /\ incl (g_edges r) (g_edges h) /\ (forall a b l, route h a b l -> route r a b l) /\
      (forall e, In e es -> In e (g_edges r) -> lightest r e).
  Proof. induction es as [|[[u v] a] es IH]; intros h P Ie; [exists h; split; auto; split; auto; split; [apply incl_refl|]; split; auto; intros e []|].
    destruct (Ie u v a (or_introl eq_refl)) as (Ia & lr & Ro). destruct (wg_ends W0 _ _ _ Ia) as (Iu & Iv).
    destruct (wg_wf h P) as (W & N). cbn [remove_duplicates]. change (end1 (u, v, a)) with u. change (end2 (u, v, a)) with v. assert (Gu : In u (g_nodes (weight_graph h))) by (cbn; rewrite (pt_nodes h P); auto). assert (Gv : In v (g_nodes (weight_graph h))) by (cbn; rewrite (pt_nodes h P); auto).
    pose proof (Sp (weight_graph h) u v W N Gu Gv) as X. destruct (spath (weight_graph h) u v) as [p|].
    2:{ exfalso. apply X. destruct Ro as (q & F & L & _). exists q. split; auto. apply (follows_imp (has_edge h)); auto. intros; symmetry; apply has_wg. }
    destruct X as ((q & -> & F & L) & Nd & M). assert (Fh : follows (has_edge h) u q) by (apply (follows_imp (has_edge (weight_graph h))); auto; intros; apply has_wg).
    assert (M' : forall q', follows (has_edge h) u q' -> last (u :: q') u = v -> (wsum om u q <= wsum om u q')%R).
    { intros q' F' L'. rewrite <- (same h u q P Fh), <- (same h u q' P F'), <- !path_weight_wsum. apply M. exists q'. split; auto. split; auto. apply (follows_imp (has_edge h)); auto. intros; symmetry; apply has_wg. }
    destruct (2 <? length (u :: q))%nat eqn:El.
    - apply Nat.ltb_lt in El. pose proof (detour_follows h u v q Fh L Nd El) as Fd. set (h' := remove_edge h u v) in *.
      assert (P' : part h'). { constructor; [apply wf_remove_edge, P|apply P|]. intros e J. apply (pt_edges h P). cbn in J. apply filter_In in J. tauto. }
      assert (Ruv : has_edge h u v -> route h' u v (om u v)). { intros E. exists q. split; auto. split; auto. specialize (M' [v]). cbn [follows last wsum] in M'. assert (wsum om u q <= om u v + 0)%R by (apply M'; auto). lra. }
      assert (Rt : forall x y l, route h x y l -> route h' x y l).
      { apply route_along. intros x y E. destruct (eq_dec x u) as [->|N1]; [destruct (eq_dec y v) as [->|N2]; auto|].
        + apply (route_le h' _ _ (om u y + 0)); [|lra]. apply route_step; [|apply route_refl]. apply remove_edge_edges. split; auto. intros [(_ & Z)|(Z & Y)]; subst; tauto.
        + destruct (eq_dec x v) as [->|N3]; [destruct (eq_dec y u) as [->|N4]|].
          * apply route_sym. rewrite ew_sym. apply Ruv. apply has_edge_sym; auto.
          * apply (route_le h' _ _ (om v y + 0)); [|lra]. apply route_step; [|apply route_refl]. apply remove_edge_edges. split; auto. intros [(Z & _)|(_ & Z)]; subst; tauto.
          * apply (route_le h' _ _ (om x y + 0)); [|lra]. apply route_step; [|apply route_refl]. apply remove_edge_edges. split; auto. intros [(Z & _)|(Z & _)]; subst; tauto. }
      destruct (IH h' P') as (r & E & Pr & Ir & Rr & Lr).
      { intros x y b J. destruct (Ie x y b (or_intror J)) as (J1 & l & J2). split; auto. exists l. auto. }
      exists r. split; auto. split; auto. split; [intros e J; specialize (Ir e J); cbn in Ir; apply filter_In in Ir; tauto|]. split; auto.
      intros e [<-|J] Jr; auto. exfalso. specialize (Ir _ Jr). cbn in Ir. apply filter_In in Ir as (_ & Z). apply negb_true_iff in Z. assert (Y : joins u v (u, v, a) = true) by (apply joins_spec; left; auto). congruence.
    - apply Nat.ltb_ge in El. destruct (IH h P) as (r & E & Pr & Ir & Rr & Lr). { intros x y b J. apply Ie. right; auto. }
      exists r. split; auto. split; auto. split; auto. split; auto. intros e [<-|J] Jr; auto. intros Nuv l (q' & F' & L' & T'). change (end1 (u, v, a)) with u in *. change (end2 (u, v, a)) with v in *.
      destruct q as [|x [|y q]]; [cbn in L; congruence| |cbn in El; lia]. cbn in L. subst x. destruct (ew_in r u v a Pr Jr) as (w & Ew & _ & Eo). unfold weight_of. cbn [snd]. rewrite Ew.
      assert (F'' : follows (has_edge h) u q'). { clear -F' Ir. revert u F'. induction q' as [|x q IH]; intros u F; cbn; auto. destruct F as ((b & [I|I]) & F); (split; [exists b; auto|auto]). }
      specialize (M' q' F'' L'). cbn [wsum] in M'. lra. Qed.

  Theorem duplicates_removed : exists r, remove_duplicate_paths spath h0 = Ok r /\ wf_graph r /\ g_nodes r = g_nodes h0 /\ incl (g_edges r) (g_edges h0) /\
    (forall u v p, is_path h0 u v p -> exists p', is_path r u v p' /\ (path_weight (weight_graph h0) p' <= path_weight (weight_graph h0) p)%R) /\
    (forall u v a w, In (u, v, (a, Some w)) (g_edges r) -> u <> v -> forall p, is_path r u v p -> (w <= path_weight (weight_graph h0) p)%R).
  Proof. unfold remove_duplicate_paths. assert (Fw : forallb has_weight (g_edges h0) = true). { apply forallb_forall. intros [[u v] a] I. destruct (Nn u v a I) as (w & E & _). unfold has_weight. cbn [snd]. rewrite E. reflexivity. }
    rewrite Fw. destruct (loop_ok (sort_by (fun a b => rle (- weight_of a) (- weight_of b)) (g_edges h0)) h0 part0) as (r & -> & Pr & Ir & Rr & Lr).
    - intros u v a J. apply (Permutation_in _ (sort_by_perm _ _)) in J. split; auto. exists (om u v + 0)%R. apply route_step; [exists a; auto|apply route_refl].
    - exists r. split; auto. split; [apply Pr|]. split; [apply Pr|]. split; auto. split.
      + intros u v p (q & -> & F & L). destruct (Rr u v (wsum om u q)) as (q' & F' & L' & T'); [exists q; split; auto; split; auto; lra|]. exists (u :: q'). split; [exists q'; auto|]. rewrite !path_weight_wsum. auto.
      + intros u v a w J Nuv p (q & -> & F & L). rewrite path_weight_wsum. assert (Li : lightest r (u, v, (a, Some w))). { apply Lr; auto. apply (Permutation_in _ (Permutation_sym (sort_by_perm _ _))). auto. }
        apply (Li Nuv (wsum om u q)). exists q. split; auto. split; auto. apply Rle_refl. Qed.
End Dup.
