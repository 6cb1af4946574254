(** Facts about clustering. *)
From Verif Require Import Base BaseFacts CoordSys SpecGeom CoordSysFacts GeomCombined CoordSysR Graph SpecGraph GraphFacts GraphComponents Cluster SpecCluster.
From Coq Require Import Reals.
Open Scope list_scope.

Section Cluster.
  Set Default Proof Using "All".
  Variables (order : list point -> list point) (eorder : list (point * point * R) -> list (point * point * R)).
  Variables (cs : coordsys) (fs : Qc) (positions : list point).
  Hypothesis O : any_order order.
  Hypothesis EO : any_order eorder.
  Hypothesis B : wf_box cs.
  Hypothesis P : Forall (is_pos cs) positions.

  Notation G := (graph point R).
  Let us := order (dedup positions).
  Let g := create_graph order cs fs positions.

  Lemma us_in x : In x us <-> In x positions.
  Proof. unfold us. split; intros I; [apply (Permutation_in _ (O _)) in I; apply in_dedup; auto|]. apply (Permutation_in _ (Permutation_sym (O _))). apply in_dedup. auto. Qed.
  Lemma us_nodup : NoDup us.
  Proof. unfold us. eapply Permutation_NoDup; [apply Permutation_sym, O|]. apply NoDup_dedup. Qed.

  Lemma set_add_new {A} `{EqDec A} (x : A) l : ~ In x l -> set_add x l = l ++ [x].
  Proof. intros N. unfold set_add. rewrite (proj2 (mem_false x l)); auto. Qed.
  Lemma add_nodes_nodes (l : list point) (h : G) : NoDup (g_nodes h ++ l) -> g_nodes (fold_left (@add_node point R _) l h) = g_nodes h ++ l /\ g_edges (fold_left (@add_node point R _) l h) = g_edges h.
  Proof. revert h. induction l as [|a l IH]; intros h N; [rewrite app_nil_r; auto|]. cbn [fold_left].
    assert (Na : ~ In a (g_nodes h)). { intros X. apply NoDup_remove_2 in N. apply N, in_app_iff. auto. }
    destruct (IH (add_node h a)) as (I1 & I2).
    - cbn [add_node g_nodes]. rewrite set_add_new by auto. rewrite <- app_assoc. exact N.
    - rewrite I1, I2. cbn [add_node g_nodes g_edges]. rewrite set_add_new by auto. rewrite <- app_assoc. auto. Qed.

  (** what an edge of the graph being built looks like *)
  Definition edge_ok (e : point * point * R) : Prop :=
    In (end1 e) us /\ In (end2 e) us /\ end1 e <> end2 e /\ dist_le cs (end1 e) (end2 e) fs = true /\ snd e = distance cs (end1 e) (end2 e).
  Definition built (h : G) : Prop := wf_graph h /\ (forall x, In x (g_nodes h) <-> In x us) /\ Forall edge_ok (g_edges h).

  Lemma add_edge_in (h : G) u v w e : In e (g_edges (add_edge h u v w)) -> In e (g_edges h) \/ e = (u, v, w) \/ (exists e0, In e0 (g_edges h) /\ joins u v e0 = true /\ e = (fst e0, w)).
  Proof. unfold add_edge. destruct (adj h u v); cbn [g_edges].
    - intros I. apply in_map_iff in I as (e0 & <- & I). destruct (joins u v e0) eqn:J; [right; right; eauto|auto].
    - intros I. apply in_app_iff in I as [I|[<-|[]]]; auto. Qed.

  Lemma dist_le_sym_us p q : In p us -> In q us -> dist_sq cs p q = dist_sq cs q p.
  Proof. intros Ip Iq. apply us_in in Ip, Iq. rewrite Forall_forall in P. apply dist_sq_sym; auto. Qed.

  Lemma link_one_built p cands : forall h, built h -> In p us -> incl cands us -> ~ In p cands ->
    built (link_one cs fs h p cands) /\
    (forall x y, has_edge (link_one cs fs h p cands) x y <-> has_edge h x y \/
       exists q, In q cands /\ dist_le cs p q fs = true /\ ((x = p /\ y = q) \/ (x = q /\ y = p))).
  Proof. unfold link_one. induction cands as [|q cands IH]; intros h Hb Ip Inc Np; cbn [fold_left].
    - split; auto. intros x y. split; auto. intros [X|(q & [] & _)]; auto.
    - assert (Iq : In q us) by (apply Inc; left; auto). assert (Npq : p <> q) by (intros ->; apply Np; left; auto).
      destruct (dist_le cs p q fs) eqn:D.
      + assert (Hb' : built (add_edge h p q (distance cs p q))).
        { destruct Hb as (W & Nn & F). split; [apply wf_add_edge; auto|]. split.
          - intros x. rewrite add_edge_nodes, Nn. intuition; subst; auto.
          - apply Forall_forall. intros e I. rewrite Forall_forall in F. apply add_edge_in in I as [I|[->|(e0 & I & J & ->)]]; auto.
            + split; [auto|]. split; [auto|]. cbn. auto.
            + destruct (F e0 I) as (F1 & F2 & F3 & F4 & F5). split; [auto|]. split; [auto|]. split; [auto|]. split; [auto|].
              apply joins_spec in J. cbn [snd]. change (end1 (fst e0, distance cs p q)) with (end1 e0). change (end2 (fst e0, distance cs p q)) with (end2 e0).
              destruct J as [[-> ->]|[-> ->]]; auto. unfold distance. rewrite (dist_le_sym_us p q); auto. }
        destruct (IH (add_edge h p q (distance cs p q)) Hb' Ip) as (I1 & I2); [intros x X; apply Inc; right; auto|intros X; apply Np; right; auto|].
        split; auto. intros x y. rewrite I2, add_edge_edges. split.
        * intros [[[-> ->]|[[-> ->]|X]]|(q' & I & D' & X)]; auto; right; [exists q|exists q|exists q']; cbn; intuition.
        * intros [X|(q' & [<-|I] & D' & X)]; [auto|intuition|]. right. exists q'. auto.
      + destruct (IH h Hb Ip) as (I1 & I2); [intros x X; apply Inc; right; auto|intros X; apply Np; right; auto|]. split; auto. intros x y. rewrite I2. split.
        * intros [X|(q' & I & D' & X)]; auto. right. exists q'. cbn. auto.
        * intros [X|(q' & [<-|I] & D' & X)]; [auto|congruence|]. right. exists q'. auto. Qed.

  Lemma link_all_built l : forall h, built h -> NoDup l -> incl l us ->
    built (link_all cs fs h l) /\
    (forall x y, has_edge (link_all cs fs h l) x y <-> has_edge h x y \/ (In x l /\ In y l /\ x <> y /\ dist_le cs x y fs = true)).
  Proof. induction l as [|p l IH]; intros h Hb Nd Inc; cbn [link_all].
    - split; auto. intros x y. cbn. tauto.
    - inversion_clear Nd as [|? ? Np Nl]. assert (Ip : In p us) by (apply Inc; left; auto). assert (Il : incl l us) by (intros x X; apply Inc; right; auto).
      destruct (link_one_built p l h Hb Ip Il Np) as (B1 & E1). destruct (IH _ B1 Nl Il) as (B2 & E2). split; auto. intros x y. rewrite E2, E1. split.
      + intros [[X|(q & Iq & D & [[-> ->]|[-> ->]])]|(Ix & Iy & N & D)]; auto.
        * right. cbn. split; auto. split; auto. split; [intros ->; auto|auto].
        * right. cbn. split; auto. split; auto. split; [intros ->; auto|]. unfold dist_le in *. rewrite (dist_le_sym_us q p); auto.
        * right. cbn. auto.
      + intros [X|([<-|Ix] & [<-|Iy] & N & D)]; auto; [congruence| |].
        * left. right. exists y. auto.
        * left. right. exists x. split; auto. split; auto. unfold dist_le in *. rewrite (dist_le_sym_us p x); auto. Qed.

  Lemma start_built : built (fold_left (@add_node point R _) us empty_graph).
  Proof. destruct (add_nodes_nodes us empty_graph) as (A1 & A2); [exact us_nodup|]. cbn in A1, A2.
    assert (E : fold_left (@add_node point R _) us empty_graph = mk_graph us []). { destruct (fold_left (@add_node point R _) us empty_graph). cbn in *. subst. reflexivity. }
    rewrite E. split; [|split; [reflexivity|constructor]]. constructor; cbn; [exact us_nodup|intros ? ? ? []|constructor]. Qed.

  Lemma graph_built : built g.
  Proof. unfold g, create_graph. fold us. apply (link_all_built us _ start_built us_nodup). apply incl_refl. Qed.
  Lemma graph_nodes x : In x (g_nodes g) <-> In x positions.
  Proof. rewrite <- us_in. apply graph_built. Qed.
  Lemma graph_edges x y : has_edge g x y <-> close cs fs positions x y.
  Proof. unfold g, create_graph. fold us. destruct (link_all_built us _ start_built us_nodup (incl_refl _)) as (_ & E). rewrite E. unfold close. rewrite !us_in, dist_le_iff.
    destruct (add_nodes_nodes us empty_graph) as (_ & A2); [exact us_nodup|]. split; [|auto]. intros [(w & X)|X]; auto. rewrite A2 in X. cbn in X. tauto. Qed.
  Lemma graph_wf : wf_graph g. Proof. apply graph_built. Qed.

  (** clusters *)
  Let cl := create_clusters order eorder cs fs positions.
  Lemma cluster_of c : In c cl -> exists u, In u positions /\ c = subgraph order eorder g (component g u).
  Proof. unfold cl, create_clusters. fold g. intros I. apply in_map_iff in I as (ns & <- & I). destruct (components_spec g graph_wf) as (C1 & _). destruct (C1 ns I) as (u & Iu & ->).
    exists u. split; auto. apply graph_nodes. auto. Qed.
  Lemma cluster_nodes u x : In u positions -> In x (g_nodes (subgraph order eorder g (component g u))) <-> linked (close cs fs positions) u x.
  Proof. intros Iu. apply graph_nodes in Iu. rewrite subgraph_nodes by auto. destruct (component_spec g graph_wf u Iu) as (_ & _ & D3 & D4). rewrite D4.
    assert (L : linked (has_edge g) u x <-> linked (close cs fs positions) u x) by (split; apply linked_mono; intros; apply graph_edges; auto).
    rewrite L. split; [tauto|]. intros X. split; auto. apply D3, D4, L. auto. Qed.
  Lemma cluster_exists u : In u positions -> exists c, In c cl /\ In u (g_nodes c).
  Proof. intros Iu. apply graph_nodes in Iu. destruct (components_spec g graph_wf) as (C1 & C2 & _). destruct (C2 u Iu) as (ns & In1 & In2).
    exists (subgraph order eorder g ns). split; [unfold cl, create_clusters; fold g; apply in_map; auto|]. rewrite subgraph_nodes; auto. Qed.

  Lemma clusters_partition : Permutation (concat (map (@g_nodes point R) cl)) (dedup positions).
  Proof. destruct (components_spec g graph_wf) as (C1 & C2 & C3). apply NoDup_Permutation; [|apply NoDup_dedup|].
    - eapply Permutation_NoDup; [|exact C3]. unfold cl, create_clusters. fold g. clear C2 C3.
      assert (X : forall l, incl l (components g) -> Permutation (concat l) (concat (map (@g_nodes point R) (map (subgraph order eorder g) l)))).
      { induction l as [|c l IH]; cbn; intros Inc; auto. apply Permutation_app; [|apply IH; intros x Hx; apply Inc; right; auto]. destruct (C1 c (Inc c (or_introl eq_refl))) as (u & Iu & ->).
        destruct (component_spec g graph_wf u Iu) as (D1 & _ & D3 & _). apply Permutation_sym. eapply Permutation_trans; [apply O|]. apply NoDup_Permutation; auto; [apply NoDup_filter, graph_wf|].
        intros x. rewrite filter_In, mem_spec. split; [tauto|]. auto. }
      apply X, incl_refl.
    - intros x. rewrite in_dedup. split.
      + intros I. apply in_concat in I as (ns & I & Ix). apply in_map_iff in I as (c & <- & I). destruct (cluster_of c I) as (u & _ & ->). rewrite subgraph_nodes in Ix by auto. apply graph_nodes. tauto.
      + intros I. destruct (cluster_exists x I) as (c & Ic & Ix). apply in_concat. exists (g_nodes c). split; auto. apply in_map. auto. Qed.
  Lemma cluster_wf c : In c cl -> wf_graph c.
  Proof. intros I. destruct (cluster_of c I) as (u & _ & ->). apply wf_subgraph; auto. apply graph_wf. Qed.
  Lemma cluster_edges c x y : In c cl -> In x (g_nodes c) -> has_edge c x y <-> close cs fs positions x y.
  Proof. intros I Ix. destruct (cluster_of c I) as (u & Iu & ->). rewrite subgraph_edges by auto. rewrite graph_edges. rewrite subgraph_nodes in Ix by auto. split; [tauto|].
    intros E. split; auto. split; [tauto|]. apply graph_nodes in Iu. destruct (component_spec g graph_wf u Iu) as (_ & _ & _ & D4). apply D4. eapply linked_trans; [apply D4; apply Ix|]. apply linked_one, graph_edges. auto. Qed.
  Lemma cluster_same c x y : In c cl -> In x (g_nodes c) -> (In y (g_nodes c) <-> linked (close cs fs positions) x y).
  Proof. intros I Ix. destruct (cluster_of c I) as (u & Iu & ->). rewrite cluster_nodes in * by auto.
    assert (S : forall a b, linked (close cs fs positions) a b -> linked (close cs fs positions) b a).
    { intros a b L. apply linked_sym; auto. intros p q E. apply graph_edges. apply has_edge_sym. apply graph_edges. auto. }
    split; intros L; eapply linked_trans; eauto. Qed.
  Lemma cluster_attr c x y w : In c cl -> In (x, y, w) (g_edges c) -> w = distance cs x y /\ x <> y.
  Proof. intros I E. destruct (cluster_of c I) as (u & _ & ->). apply subgraph_in in E as (E & _); auto. destruct graph_built as (_ & _ & F). rewrite Forall_forall in F. destruct (F _ E) as (_ & _ & F3 & _ & F5). auto. Qed.
  Lemma cluster_nonempty c : In c cl -> g_nodes c <> [].
  Proof. intros I. destruct (cluster_of c I) as (u & Iu & ->). intros X. assert (Y : In u (g_nodes (subgraph order eorder g (component g u)))) by (apply cluster_nodes; auto; apply linked_refl). rewrite X in Y. destruct Y. Qed.
  Lemma cluster_connected c : In c cl -> connected c.
  Proof. intros I x y Ix Iy. apply (cluster_same c x y I Ix) in Iy. destruct Iy as (p & F & L). exists p. split; auto. clear L. revert x Ix F. induction p as [|z p IH]; intros x Ix F; cbn; auto.
    destruct F as [F1 F2]. assert (E : has_edge c x z) by (apply (cluster_edges c x z I Ix); auto). split; auto. apply IH; auto. apply (wf_ends (cluster_wf c I) E). Qed.
End Cluster.
