(** Facts about clusters in double precision. *)
From Coq Require Import ZArith Reals Psatz List Permutation.
From Flocq Require Import Core BinarySingleNaN.
From Verif Require Import Base BaseFacts CoordSys SpecGeom CoordSysR Graph SpecGraph GraphFacts GraphComponents SpecCluster ClusterFacts Float FloatFacts FloatVector FloatVectorFacts FloatMin FloatCell SpecFloatCell FloatCellNum FloatCellFacts PropFloatCell
  FloatController FloatCluster SpecFloatCluster FloatDistNum.
From Coq Require Import Lra.
Import ListNotations.
Open Scope list_scope.

(** ** the set of positions *)
Lemma tuple_eq_same p q : Forall (fun x => fin x) p -> Forall (fun x => fin x) q -> tuple_eq p q = true <-> same_place p q.
Proof. unfold same_place. intros Fp. revert q. induction Fp as [|x p Fx Fp IH]; intros [|y q] Fq; cbn; try (split; [discriminate|intros X; inversion X]); [split; [constructor|auto]|].
  inversion Fq; subst. rewrite andb_true_iff, Beqb_correct by auto. rewrite (IH q) by auto. split.
  - intros (E & F). constructor; auto. destruct (Req_bool_spec (B2R x) (B2R y)); [auto|discriminate].
  - intros X. inversion X; subst. split; auto. apply Req_bool_true. auto. Qed.
Lemma same_place_sym p q : same_place p q -> same_place q p.
Proof. unfold same_place. induction 1; constructor; auto. Qed.
Lemma same_place_refl p : same_place p p.
Proof. unfold same_place. induction p; constructor; auto. Qed.
Lemma same_place_trans p q r : same_place p q -> same_place q r -> same_place p r.
Proof. unfold same_place. intros H. revert r. induction H; intros r Hr; inversion Hr; subst; constructor; auto. congruence. Qed.

Definition finite_pos (p : fpoint) : Prop := Forall (fun x => fin x) p.
Lemma fset_step positions : Forall finite_pos positions -> forall s, Forall finite_pos s -> ForallOrdPairs (fun p q => ~ same_place p q) s ->
  let t := fold_left (fun s p => if existsb (tuple_eq p) s then s else s ++ [p]) positions s in
  Forall finite_pos t /\ ForallOrdPairs (fun p q => ~ same_place p q) t /\ incl s t /\ incl t (s ++ positions) /\ forall p, In p positions -> exists q, In q t /\ same_place p q.
Proof. induction 1 as [|p ps Fp F IH]; intros s Fs Os; cbn [fold_left].
  - cbv zeta. split; auto. split; auto. split; [apply incl_refl|]. split; [rewrite app_nil_r; apply incl_refl|]. intros p [].
  - destruct (existsb (tuple_eq p) s) eqn:E.
    + destruct (IH s Fs Os) as (A & B & C & D & G). cbv zeta. split; auto. split; auto. split; auto. split; [intros x Hx; specialize (D x Hx); apply in_app_iff in D; apply in_app_iff; cbn; tauto|].
      intros q [<-|Hq]; auto. apply existsb_exists in E as (y & Iy & Ey). exists y. split; auto. rewrite Forall_forall in Fs. apply tuple_eq_same; auto. apply (Fs y Iy).
    + destruct (IH (s ++ [p])) as (A & B & C & D & G).
      * apply Forall_app. auto.
      * clear - Os E Fs Fp. assert (N : forall y, In y s -> ~ same_place y p).
        { intros y Iy X. assert (Y : existsb (tuple_eq p) s = true); [|congruence]. apply existsb_exists. exists y. split; auto. rewrite Forall_forall in Fs. apply tuple_eq_same; auto; [apply (Fs y Iy)|]. apply same_place_sym; auto. }
        clear E Fs. induction Os as [|a l Ha Os IH]; cbn; [repeat constructor|]. constructor; [apply Forall_app; split; auto; constructor; auto; apply N; left; auto|]. apply IH. intros y Hy. apply N. right; auto.
      * cbv zeta. split; auto. split; auto. split; [intros x Hx; apply C, in_app_iff; auto|]. split; [intros x Hx; specialize (D x Hx); rewrite <- app_assoc in D; exact D|].
        intros q [<-|Hq]; auto. exists p. split; [apply C, in_app_iff; cbn; auto|apply same_place_refl]. Qed.
Lemma ordpairs_nodup (l : list fpoint) : ForallOrdPairs (fun p q => ~ same_place p q) l -> NoDup l.
Proof. induction 1 as [|a l Ha F IH]; constructor; auto. intros X. rewrite Forall_forall in Ha. apply (Ha a X), same_place_refl. Qed.
Lemma ordpairs_in {A} (R : A -> A -> Prop) l : ForallOrdPairs R l -> forall x y, In x l -> In y l -> x = y \/ R x y \/ R y x.
Proof. induction 1 as [|a l Ha F IH]; intros x y Hx Hy; [destruct Hx|]. rewrite Forall_forall in Ha. destruct Hx as [<-|Hx], Hy as [<-|Hy]; auto. Qed.
Lemma fset_spec positions : Forall finite_pos positions -> let t := fset_of positions in
  NoDup t /\ (forall p q, In p t -> In q t -> same_place p q -> p = q) /\ incl t positions /\ forall p, In p positions -> exists q, In q t /\ same_place p q.
Proof. intros F. destruct (fset_step positions F [] (Forall_nil _) (FOP_nil _)) as (_ & B & _ & D & E). cbv zeta. unfold fset_of. split; [apply ordpairs_nodup; exact B|]. split; auto.
  intros p q Ip Iq S. destruct (ordpairs_in _ _ B p q Ip Iq) as [X|[X|X]]; auto; exfalso; apply X; auto. apply same_place_sym; auto. Qed.

(** ** the graph *)
Definition before {A} (us : list A) (x y : A) : Prop := exists a b c, us = a ++ x :: b ++ y :: c.
Lemma before_in {A} (us : list A) x y : before us x y -> In x us /\ In y us.
Proof. intros (a & b & c & ->). split; apply in_app_iff; right; cbn; auto. right. apply in_app_iff. cbn. auto. Qed.
Lemma before_neq {A} (us : list A) x y : NoDup us -> before us x y -> x <> y.
Proof. intros N (a & b & c & ->) <-. apply NoDup_remove_2 in N. apply N. apply in_app_iff. right. apply in_app_iff. cbn. auto. Qed.
Lemma before_cons {A} (us : list A) p x y : before (p :: us) x y <-> (x = p /\ In y us) \/ before us x y.
Proof. split.
  - intros (a & b & c & E). destruct a as [|z a]; injection E as -> ->; [left; split; auto; apply in_app_iff; cbn; auto|]. right. exists a, b, c. auto.
  - intros [(-> & I)|(a & b & c & ->)]; [|exists (p :: a), b, c; auto]. apply in_split in I as (b & c & ->). exists [], b, c. auto. Qed.
Lemma before_asym {A} (us : list A) x y : NoDup us -> before us x y -> before us y x -> False.
Proof. induction us as [|p us IH]; intros N H1 H2; [destruct H1 as ([|] & b & c & E); discriminate|]. inversion N; subst. apply before_cons in H1, H2.
  destruct H1 as [(-> & I1)|H1], H2 as [(-> & I2)|H2]; auto; apply before_in in H1 || apply before_in in H2; tauto. Qed.
Lemma before_total {A} (us : list A) x y : In x us -> In y us -> x <> y -> before us x y \/ before us y x.
Proof. induction us as [|p us IH]; [intros []|]. intros Ix Iy N. rewrite !before_cons. destruct Ix as [<-|Ix], Iy as [<-|Iy]; auto; [congruence|]. destruct (IH Ix Iy N); auto. Qed.

Section Cluster.
  Variables (order : list fpoint -> list fpoint) (eorder : list (fpoint * fpoint * double) -> list (fpoint * fpoint * double)).
  Variables (per : bool) (boxes : list fbox) (fs : double) (positions : list fpoint).
  Hypothesis O : any_order order.
  Hypothesis EO : any_order eorder.
  Hypothesis P : Forall finite_pos positions.
  Notation G := (graph fpoint double).
  Let us := order (fset_of positions).
  Let g := fcreate_graph order per boxes fs positions.

  Lemma fus_in x : In x us <-> In x (fset_of positions).
  Proof. unfold us. split; intros I; [apply (Permutation_in _ (O _)) in I; auto|]. apply (Permutation_in _ (Permutation_sym (O _))). auto. Qed.
  Lemma fus_nodup : NoDup us.
  Proof. unfold us. eapply Permutation_NoDup; [apply Permutation_sym, O|]. apply fset_spec; auto. Qed.
  Lemma fadd_nodes_nodes (l : list fpoint) (h : G) : NoDup (g_nodes h ++ l) -> g_nodes (fold_left (@add_node fpoint double _) l h) = g_nodes h ++ l /\ g_edges (fold_left (@add_node fpoint double _) l h) = g_edges h.
  Proof. revert h. induction l as [|a l IH]; intros h N; [rewrite app_nil_r; auto|]. cbn [fold_left].
    assert (Na : ~ In a (g_nodes h)). { intros X. apply NoDup_remove_2 in N. apply N, in_app_iff. auto. }
    assert (SA : forall l : list fpoint, ~ In a l -> set_add a l = l ++ [a]) by (intros l0 N0; unfold set_add; rewrite (proj2 (mem_false a l0)); auto).
    destruct (IH (add_node h a)) as (I1 & I2).
    - cbn [add_node g_nodes]. rewrite SA by auto. rewrite <- app_assoc. exact N.
    - rewrite I1, I2. cbn [add_node g_nodes g_edges]. rewrite SA by auto. rewrite <- app_assoc. auto. Qed.

  (** the pair was compared, in this direction, and found close *)
  Definition ftested (x y : fpoint) : Prop := before us x y /\ dle (fdist per boxes x y) fs = true.
  Definition fedge_ok (e : fpoint * fpoint * double) : Prop := ftested (end1 e) (end2 e) /\ snd e = fdist per boxes (end1 e) (end2 e).
  Definition fbuilt (h : G) : Prop := wf_graph h /\ (forall x, In x (g_nodes h) <-> In x us) /\ Forall fedge_ok (g_edges h).
  Lemma fadd_edge_in (h : G) u v w e : In e (g_edges (add_edge h u v w)) -> In e (g_edges h) \/ e = (u, v, w) \/ (exists e0, In e0 (g_edges h) /\ joins u v e0 = true /\ e = (fst e0, w)).
  Proof. unfold add_edge. destruct (adj h u v); cbn [g_edges].
    - intros I. apply in_map_iff in I as (e0 & <- & I). destruct (joins u v e0) eqn:J; [right; right; eauto|auto].
    - intros I. apply in_app_iff in I as [I|[<-|[]]]; auto. Qed.
  Lemma flink_one_built p cands : forall h, fbuilt h -> (forall q, In q cands -> before us p q) ->
    fbuilt (flink_one per boxes fs h p cands) /\
    (forall x y, has_edge (flink_one per boxes fs h p cands) x y <-> has_edge h x y \/
       exists q, In q cands /\ dle (fdist per boxes p q) fs = true /\ ((x = p /\ y = q) \/ (x = q /\ y = p))).
  Proof. unfold flink_one. induction cands as [|q cands IH]; intros h Hb Bf; cbn [fold_left].
    - split; auto. intros x y. split; auto. intros [X|(q & [] & _)]; auto.
    - assert (Bq : before us p q) by (apply Bf; left; auto). destruct (before_in _ _ _ Bq) as (Ip & Iq). pose proof (before_neq _ _ _ fus_nodup Bq) as Npq.
      cbv zeta. destruct (dle (fdist per boxes p q) fs) eqn:D.
      + assert (Hb' : fbuilt (add_edge h p q (fdist per boxes p q))).
        { destruct Hb as (W & Nn & F). split; [apply wf_add_edge; auto|]. split.
          - intros x. rewrite add_edge_nodes, Nn. intuition; subst; auto.
          - apply Forall_forall. intros e I. rewrite Forall_forall in F. apply fadd_edge_in in I as [I|[->|(e0 & I & J & ->)]]; auto.
            + split; [split|]; cbn; auto.
            + destruct (F e0 I) as ((F1 & F2) & F3). split; [split; auto|].
              apply joins_spec in J. cbn [snd]. change (end1 (fst e0, fdist per boxes p q)) with (end1 e0). change (end2 (fst e0, fdist per boxes p q)) with (end2 e0).
              destruct J as [[E1 E2]|[E1 E2]]; rewrite E1, E2 in *; auto. exfalso. eapply before_asym; eauto using fus_nodup. }
        destruct (IH (add_edge h p q (fdist per boxes p q)) Hb') as (I1 & I2); [intros x X; apply Bf; right; auto|].
        split; auto. intros x y. rewrite I2, add_edge_edges. split.
        * intros [[[-> ->]|[[-> ->]|X]]|(q' & I & D' & X)]; auto; right; [exists q|exists q|exists q']; cbn; intuition.
        * intros [X|(q' & [<-|I] & D' & X)]; [auto|intuition|]. right. exists q'. auto.
      + destruct (IH h Hb) as (I1 & I2); [intros x X; apply Bf; right; auto|]. split; auto. intros x y. rewrite I2. split.
        * intros [X|(q' & I & D' & X)]; auto. right. exists q'. cbn. auto.
        * intros [X|(q' & [<-|I] & D' & X)]; [auto|congruence|]. right. exists q'. auto. Qed.
  Lemma flink_all_built l : forall h, fbuilt h -> (forall x y, before l x y -> before us x y) ->
    fbuilt (flink_all per boxes fs h l) /\
    (forall x y, has_edge (flink_all per boxes fs h l) x y <-> has_edge h x y \/ (before l x y /\ dle (fdist per boxes x y) fs = true) \/ (before l y x /\ dle (fdist per boxes y x) fs = true)).
  Proof. induction l as [|p l IH]; intros h Hb Sf; cbn [flink_all].
    - split; auto. intros x y. split; auto. intros [X|[(([|] & b & c & E) & _)|(([|] & b & c & E) & _)]]; auto; discriminate.
    - destruct (flink_one_built p l h Hb) as (B1 & E1); [intros q Hq; apply Sf; apply before_cons; auto|]. destruct (IH _ B1) as (B2 & E2); [intros x y X; apply Sf; apply before_cons; auto|]. split; auto. intros x y. rewrite E2, E1, !before_cons. split.
      + intros [[X|(q & Iq & D & [[-> ->]|[-> ->]])]|[(X & D)|(X & D)]]; auto 6.
      + intros [X|[([(-> & I)|X] & D)|([(-> & I)|X] & D)]]; auto; left; right; [exists y|exists x]; auto. Qed.
  Lemma fstart_built : fbuilt (fold_left (@add_node fpoint double _) us empty_graph).
  Proof. destruct (fadd_nodes_nodes us empty_graph) as (A1 & A2); [exact fus_nodup|]. cbn in A1, A2.
    assert (E : fold_left (@add_node fpoint double _) us empty_graph = mk_graph us []). { destruct (fold_left (@add_node fpoint double _) us empty_graph). cbn in *. subst. reflexivity. }
    rewrite E. split; [|split; [reflexivity|constructor]]. constructor; cbn; [exact fus_nodup|intros ? ? ? []|constructor]. Qed.
  Lemma fgraph_built : fbuilt g.
  Proof. unfold g, fcreate_graph. fold us. apply (flink_all_built us _ fstart_built). auto. Qed.
  Lemma fgraph_nodes x : In x (g_nodes g) <-> In x us.
  Proof. apply fgraph_built. Qed.
  Definition flinks (x y : fpoint) : Prop := ftested x y \/ ftested y x.
  Lemma fgraph_edges x y : has_edge g x y <-> flinks x y.
  Proof. unfold g, fcreate_graph. fold us. destruct (flink_all_built us _ fstart_built) as (_ & E); [auto|]. rewrite E. unfold flinks, ftested.
    destruct (fadd_nodes_nodes us empty_graph) as (_ & A2); [exact fus_nodup|]. split; [|auto]. intros [(w & X)|X]; auto. rewrite A2 in X. cbn in X. tauto. Qed.
  Lemma fgraph_wf : wf_graph g. Proof. apply fgraph_built. Qed.

  (** clusters *)
  Let cl := fcreate_clusters order eorder per boxes fs positions.
  Lemma fcluster_of c : In c cl -> exists u, In u us /\ c = subgraph order eorder g (component g u).
  Proof. unfold cl, fcreate_clusters. fold g. intros I. apply in_map_iff in I as (ns & <- & I). destruct (components_spec g fgraph_wf) as (C1 & _). destruct (C1 ns I) as (u & Iu & ->).
    exists u. split; auto. apply fgraph_nodes. auto. Qed.
  Lemma fcluster_nodes u x : In u us -> In x (g_nodes (subgraph order eorder g (component g u))) <-> linked flinks u x.
  Proof. intros Iu. apply fgraph_nodes in Iu. rewrite subgraph_nodes by auto. destruct (component_spec g fgraph_wf u Iu) as (_ & _ & D3 & D4). rewrite D4.
    assert (L : linked (has_edge g) u x <-> linked flinks u x) by (split; apply linked_mono; intros; apply fgraph_edges; auto).
    rewrite L. split; [tauto|]. intros X. split; auto. apply D3, D4, L. auto. Qed.
  Lemma fcluster_exists u : In u us -> exists c, In c cl /\ In u (g_nodes c).
  Proof. intros Iu. apply fgraph_nodes in Iu. destruct (components_spec g fgraph_wf) as (C1 & C2 & _). destruct (C2 u Iu) as (ns & In1 & In2).
    exists (subgraph order eorder g ns). split; [unfold cl, fcreate_clusters; fold g; apply in_map; auto|]. rewrite subgraph_nodes; auto. Qed.
  Lemma fclusters_partition : Permutation (concat (map (@g_nodes fpoint double) cl)) us.
  Proof. destruct (components_spec g fgraph_wf) as (C1 & C2 & C3). apply NoDup_Permutation; [|apply fus_nodup|].
    - eapply Permutation_NoDup; [|exact C3]. unfold cl, fcreate_clusters. fold g. clear C2 C3.
      assert (X : forall l, incl l (components g) -> Permutation (concat l) (concat (map (@g_nodes fpoint double) (map (subgraph order eorder g) l)))).
      { induction l as [|c l IH]; cbn; intros Inc; auto. apply Permutation_app; [|apply IH; intros x Hx; apply Inc; right; auto]. destruct (C1 c (Inc c (or_introl eq_refl))) as (u & Iu & ->).
        destruct (component_spec g fgraph_wf u Iu) as (D1 & _ & D3 & _). apply Permutation_sym. eapply Permutation_trans; [apply O|]. apply NoDup_Permutation; auto; [apply NoDup_filter, fgraph_wf|].
        intros x. rewrite filter_In, mem_spec. split; [tauto|]. auto. }
      apply X, incl_refl.
    - intros x. split.
      + intros I. apply in_concat in I as (ns & I & Ix). apply in_map_iff in I as (c & <- & I). destruct (fcluster_of c I) as (u & _ & ->). rewrite subgraph_nodes in Ix by auto. apply fgraph_nodes. tauto.
      + intros I. destruct (fcluster_exists x I) as (c & Ic & Ix). apply in_concat. exists (g_nodes c). split; auto. apply in_map. auto. Qed.
  Lemma fcluster_wf c : In c cl -> wf_graph c.
  Proof. intros I. destruct (fcluster_of c I) as (u & _ & ->). apply wf_subgraph; auto. apply fgraph_wf. Qed.
  Lemma fcluster_edges c x y : In c cl -> In x (g_nodes c) -> has_edge c x y <-> flinks x y.
  Proof. intros I Ix. destruct (fcluster_of c I) as (u & Iu & ->). rewrite subgraph_edges by auto. rewrite fgraph_edges. rewrite subgraph_nodes in Ix by auto. split; [tauto|].
    intros E. split; auto. split; [tauto|]. apply fgraph_nodes in Iu. destruct (component_spec g fgraph_wf u Iu) as (_ & _ & _ & D4). apply D4. eapply linked_trans; [apply D4; apply Ix|]. apply linked_one, fgraph_edges. auto. Qed.
  Lemma flinks_sym x y : flinks x y -> flinks y x.
  Proof. unfold flinks. tauto. Qed.
  Lemma fcluster_same c x y : In c cl -> In x (g_nodes c) -> (In y (g_nodes c) <-> linked flinks x y).
  Proof. intros I Ix. destruct (fcluster_of c I) as (u & Iu & ->). rewrite fcluster_nodes in * by auto.
    assert (S : forall a b, linked flinks a b -> linked flinks b a) by (intros a b L; apply linked_sym; auto; intros; apply flinks_sym; auto).
    split; intros L; eapply linked_trans; eauto. Qed.
  Lemma fcluster_attr c x y w : In c cl -> In (x, y, w) (g_edges c) -> ftested x y /\ w = fdist per boxes x y.
  Proof. intros I E. destruct (fcluster_of c I) as (u & _ & ->). apply subgraph_in in E as (E & _); auto. destruct fgraph_built as (_ & _ & F). rewrite Forall_forall in F. destruct (F _ E) as (F1 & F2). auto. Qed.
  Lemma fcluster_nonempty c : In c cl -> g_nodes c <> [].
  Proof. intros I. destruct (fcluster_of c I) as (u & Iu & ->). intros X. assert (Y : In u (g_nodes (subgraph order eorder g (component g u)))) by (apply fcluster_nodes; auto; apply linked_refl). rewrite X in Y. destruct Y. Qed.
  Lemma fcluster_in c x : In c cl -> In x (g_nodes c) -> In x us.
  Proof. intros I Ix. destruct (fcluster_of c I) as (u & _ & ->). rewrite subgraph_nodes in Ix by auto. apply fgraph_nodes. tauto. Qed.
End Cluster.
