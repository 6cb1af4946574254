(** Facts about the graph operations. *)
From Verif Require Import Base BaseFacts Graph SpecGraph.
Set Implicit Arguments.

Section Chains.
  Context {A : Type}.
  Variable R : A -> A -> Prop.
  Lemma last_cons (x y : A) p d : last (x :: y :: p) d = last (y :: p) d.
  Proof. reflexivity. Qed.
  Lemma last_default (x : A) p d d' : last (x :: p) d = last (x :: p) d'.
  Proof. revert x. induction p as [|y p IH]; intros x; [reflexivity|]. rewrite !last_cons. apply IH. Qed.
  Lemma linked_refl u : linked R u u.
  Proof. exists []. split; [exact I|reflexivity]. Qed.
  Lemma linked_step u v w : R u v -> linked R v w -> linked R u w.
  Proof. intros Ruv (p & F & L). exists (v :: p). split; [split; auto|]. rewrite last_cons. rewrite (last_default v p u v). exact L. Qed.
  Lemma linked_one u v : R u v -> linked R u v.
  Proof. intros H. eapply linked_step; eauto using linked_refl. Qed.
  Lemma linked_trans u v w : linked R u v -> linked R v w -> linked R u w.
  Proof. intros (p & F & L). revert u F L. induction p as [|x p IH]; intros u F L Hw; [cbn in L; subst; auto|].
    destruct F as [Rux F]. eapply linked_step; eauto. apply IH; auto. rewrite last_cons in L. rewrite (last_default x p x u). auto. Qed.
  Lemma linked_sym : (forall a b, R a b -> R b a) -> forall u v, linked R u v -> linked R v u.
  Proof. intros S u v (p & F & L). revert u F L. induction p as [|x p IH]; intros u F L; [cbn in L; subst; apply linked_refl|].
    destruct F as [Rux F]. eapply linked_trans; [|apply linked_one, S; eauto]. apply IH; auto. rewrite last_cons in L. rewrite (last_default x p x u). auto. Qed.
  (** a set closed under R that contains the start contains the end *)
  Lemma linked_closed (P : A -> Prop) u v : (forall a b, P a -> R a b -> P b) -> linked R u v -> P u -> P v.
  Proof. intros C (p & F & L). revert u F L. induction p as [|x p IH]; intros u F L Pu; [cbn in L; subst; auto|].
    destruct F as [Rux F]. apply (IH x); eauto. rewrite last_cons in L. rewrite (last_default x p x u). auto. Qed.
End Chains.
Lemma linked_mono {A} (R S : A -> A -> Prop) u v : (forall a b, R a b -> S a b) -> linked R u v -> linked S u v.
Proof. intros I (p & F & L). exists p. split; auto. clear L. revert u F. induction p; cbn; intuition. Qed.

Section Facts.
  Context {A W : Type} `{EqDec A}.
  Implicit Types g : graph A W.

  Lemma joins_spec u v (e : A * A * W) : joins u v e = true <-> (end1 e = u /\ end2 e = v) \/ (end1 e = v /\ end2 e = u).
  Proof. unfold joins. rewrite orb_true_iff, !andb_true_iff, !eqb_spec. reflexivity. Qed.
  Lemma joins_sym u v (e : A * A * W) : joins u v e = joins v u e.
  Proof. unfold joins. apply orb_comm. Qed.
  Lemma has_edge_in g u v : has_edge g u v <-> exists e, In e (g_edges g) /\ joins u v e = true.
  Proof. split.
    - intros (w & [I|I]); eexists; (split; [exact I|]); apply joins_spec; [left|right]; auto.
    - intros ([[a b] w] & I & J). apply joins_spec in J. cbn in J. exists w. destruct J as [[-> ->]|[-> ->]]; auto. Qed.
  Lemma adj_spec g u v : adj g u v = true <-> has_edge g u v.
  Proof. rewrite has_edge_in. unfold adj. rewrite existsb_exists. reflexivity. Qed.
  Lemma adj_false g u v : adj g u v = false <-> ~ has_edge g u v.
  Proof. rewrite <- adj_spec. destruct (adj g u v); intuition congruence. Qed.
  Lemma has_edge_sym g u v : has_edge g u v -> has_edge g v u.
  Proof. intros (w & I). exists w. tauto. Qed.
  Lemma in_neighbors g u v : In v (neighbors g u) <-> has_edge g u v.
  Proof. rewrite has_edge_in. unfold neighbors. rewrite in_flat_map. split.
    - intros (e & I & J). exists e. split; auto. apply joins_spec. unfold other in J. destruct (eqb (end1 e) u) eqn:E1.
      + apply eqb_spec in E1. destruct J as [<-|[]]. auto.
      + destruct (eqb (end2 e) u) eqn:E2; [|destruct J]. apply eqb_spec in E2. destruct J as [<-|[]]. auto.
    - intros (e & I & J). exists e. split; auto. apply joins_spec in J. unfold other. destruct J as [[<- <-]|[<- <-]].
      + rewrite eqb_refl. left; auto.
      + destruct (eqb (end1 e) (end2 e)) eqn:E; [apply eqb_spec in E; left; congruence|]. rewrite eqb_refl. left; auto. Qed.

  Lemma wf_ends g u v : wf_graph g -> has_edge g u v -> In u (g_nodes g) /\ In v (g_nodes g).
  Proof. intros G (w & [I|I]); apply (wg_ends G) in I; tauto. Qed.

  (** ** Editing *)
  Lemma add_node_nodes g u x : In x (g_nodes (add_node g u)) <-> x = u \/ In x (g_nodes g).
  Proof. cbn. apply in_set_add. Qed.
  Lemma add_edge_nodes g u v w x : In x (g_nodes (add_edge g u v w)) <-> x = u \/ x = v \/ In x (g_nodes g).
  Proof. unfold add_edge. destruct (adj g u v); cbn; rewrite !in_set_add; tauto. Qed.
  Lemma joins_relabel u v (e : A * A * W) (w : W) : joins u v ((fst e, w) : A * A * W) = joins u v e.
  Proof. reflexivity. Qed.
  Lemma add_edge_edges g u v w x y : has_edge (add_edge g u v w) x y <-> (x = u /\ y = v) \/ (x = v /\ y = u) \/ has_edge g x y.
  Proof. unfold add_edge. destruct (adj g u v) eqn:E.
    - rewrite !has_edge_in. cbn [g_edges]. split.
      + intros (e & I & J). apply in_map_iff in I as (e0 & Ee & I). right. right. exists e0. split; auto. destruct (joins u v e0); subst e; auto.
      + assert (K : has_edge g x y -> exists e, In e (map (fun e => if joins u v e then (fst e, w) else e) (g_edges g)) /\ joins x y e = true).
        { rewrite has_edge_in. intros (e & I & J). exists (if joins u v e then (fst e, w) else e). split; [apply in_map_iff; exists e; auto|]. destruct (joins u v e); auto. }
        apply adj_spec in E. intros [[-> ->]|[[-> ->]|X]]; [apply K; auto|apply K, has_edge_sym; auto|apply K, has_edge_in; auto].
    - rewrite !has_edge_in. cbn [g_edges]. split.
      + intros (e & I & J). apply in_app_iff in I as [I|[<-|[]]]; [right; right; eauto|]. apply joins_spec in J. cbn in J. intuition.
      + intros [[-> ->]|[[-> ->]|(e & I & J)]]; [exists (u, v, w)|exists (u, v, w)|exists e]; (split; [apply in_app_iff; cbn; auto|]); auto; apply joins_spec; cbn; auto. Qed.
  Lemma remove_edge_edges g u v x y : has_edge (remove_edge g u v) x y <-> has_edge g x y /\ ~ ((x = u /\ y = v) \/ (x = v /\ y = u)).
  Proof. rewrite !has_edge_in. cbn [remove_edge g_edges]. split.
    - intros (e & I & J). apply filter_In in I as [I N]. split; [eauto|]. intros X. apply negb_true_iff in N. apply joins_spec in J.
      assert (K : joins u v e = true) by (apply joins_spec; intuition subst; auto). congruence.
    - intros ((e & I & J) & N). exists e. split; auto. apply filter_In. split; auto. apply negb_true_iff. destruct (joins u v e) eqn:K; auto. exfalso. apply N.
      apply joins_spec in J. apply joins_spec in K. intuition congruence. Qed.
  Lemma remove_nodes_nodes g us x : In x (g_nodes (remove_nodes g us)) <-> In x (g_nodes g) /\ ~ In x us.
  Proof. cbn. rewrite filter_In, negb_true_iff, mem_false. reflexivity. Qed.
  Lemma remove_nodes_edges g us x y : has_edge (remove_nodes g us) x y <-> has_edge g x y /\ ~ In x us /\ ~ In y us.
  Proof. rewrite !has_edge_in. cbn [remove_nodes g_edges]. split.
    - intros (e & I & J). apply filter_In in I as [I N]. rewrite andb_true_iff, !negb_true_iff, !mem_false in N. split; [eauto|]. apply joins_spec in J.
      destruct J as [[<- <-]|[<- <-]]; tauto.
    - intros ((e & I & J) & N1 & N2). exists e. split; auto. apply filter_In. split; auto. rewrite andb_true_iff, !negb_true_iff, !mem_false. apply joins_spec in J.
      destruct J as [[<- <-]|[<- <-]]; tauto. Qed.

  Lemma wf_empty : wf_graph (@empty_graph A W).
  Proof. constructor; cbn; [constructor|intros ? ? ? []|constructor]. Qed.
  Lemma wf_add_node g u : wf_graph g -> wf_graph (add_node g u).
  Proof. intros G. constructor; cbn; [apply NoDup_set_add, G| |apply G]. intros a b w I. rewrite !in_set_add. apply (wg_ends G) in I. tauto. Qed.
  Lemma simple_map (l : list (A * A * W)) (f : A * A * W -> A * A * W) : (forall e, fst (f e) = fst e) ->
    ForallOrdPairs apart l -> ForallOrdPairs apart (map f l).
  Proof. intros E. induction 1 as [|e l F _ IH]; cbn; constructor; auto. apply Forall_forall. intros x I. apply in_map_iff in I as (y & <- & I).
    rewrite Forall_forall in F. specialize (F y I). unfold apart, joins, end1, end2 in *. rewrite !E. exact F. Qed.
  Lemma simple_filter (l : list (A * A * W)) (f : A * A * W -> bool) :
    ForallOrdPairs apart l -> ForallOrdPairs apart (filter f l).
  Proof. induction 1 as [|e l F _ IH]; cbn; [constructor|]. destruct (f e); auto. constructor; auto. apply Forall_forall. intros x I. apply filter_In in I as [I _].
    rewrite Forall_forall in F. auto. Qed.
  Lemma simple_snoc (l : list (A * A * W)) u v w : ForallOrdPairs apart l ->
    (forall e, In e l -> joins u v e = false) -> ForallOrdPairs apart (l ++ [(u, v, w)]).
  Proof. induction 1 as [|e l F _ IH]; cbn; intros N; [constructor; constructor|]. constructor; [|apply IH; auto].
    apply Forall_app. split; auto. constructor; [|constructor]. specialize (N e (or_introl eq_refl)). unfold apart. destruct (joins (end1 e) (end2 e) (u, v, w)) eqn:J; auto.
    apply joins_spec in J. cbn in J. rewrite <- N. symmetry. apply joins_spec. intuition. Qed.
  Lemma wf_add_edge g u v w : wf_graph g -> wf_graph (add_edge g u v w).
  Proof. intros G. unfold add_edge. destruct (adj g u v) eqn:E; constructor; cbn [g_nodes g_edges add_node].
    - do 2 apply NoDup_set_add. apply G.
    - intros a b w' I. apply in_map_iff in I as ([[a' b'] w''] & Ee & I). apply (wg_ends G) in I. rewrite !in_set_add. destruct (joins u v (a', b', w'')); cbn in Ee; injection Ee as <- <- _; tauto.
    - apply simple_map; [intros e; destruct (joins u v e); reflexivity|apply G].
    - do 2 apply NoDup_set_add. apply G.
    - intros a b w' I. rewrite !in_set_add. apply in_app_iff in I as [I|[[= <- <- _]|[]]]; [apply (wg_ends G) in I|]; tauto.
    - apply simple_snoc; [apply G|]. intros e I. destruct (joins u v e) eqn:J; auto. apply adj_false in E. destruct E. apply has_edge_in. eauto. Qed.
  Lemma wf_remove_edge g u v : wf_graph g -> wf_graph (remove_edge g u v).
  Proof. intros G. constructor; cbn; [apply G| |apply simple_filter, G]. intros a b w I. apply filter_In in I as [I _]. apply (wg_ends G _ _ _ I). Qed.
  Lemma wf_remove_nodes g us : wf_graph g -> wf_graph (remove_nodes g us).
  Proof. intros G. constructor; cbn; [apply NoDup_filter, G| |apply simple_filter, G]. intros a b w I. apply filter_In in I as [I N]. cbn in N. rewrite andb_true_iff in N.
    rewrite !filter_In. apply (wg_ends G) in I. tauto. Qed.

  Lemma in_other u x (e : A * A * W) : In x (other u e) -> joins u x e = true.
  Proof. unfold other. intros I. apply joins_spec. unfold eqb in I. destruct (eq_dec (end1 e) u) as [E|E]; [destruct I as [I|[]]; auto|].
    destruct (eq_dec (end2 e) u) as [E'|E']; [destruct I as [I|[]]; auto|destruct I]. Qed.
  Lemma joins_apart u x (e f : A * A * W) : joins u x e = true -> joins u x f = true -> apart e f -> False.
  Proof. intros J1 J2 Ap. unfold apart in Ap. rewrite <- not_true_iff_false in Ap. apply Ap. apply joins_spec in J1, J2. apply joins_spec. intuition congruence. Qed.
  Lemma nodup_neighbors g : wf_graph g -> forall u, NoDup (neighbors g u).
  Proof. intros G u. unfold neighbors. pose proof (wg_simple G) as S. induction S as [|e l F S IH]; cbn; [constructor|].
    assert (No : NoDup (other u e)) by (unfold other; destruct (eqb _ _); [repeat constructor; auto|]; destruct (eqb _ _); repeat constructor; auto).
    assert (D : forall x, In x (other u e) -> ~ In x (flat_map (other u) l)).
    { intros x I J. apply in_flat_map in J as (f & If & J). rewrite Forall_forall in F. exact (@joins_apart u x e f (in_other _ _ _ I) (in_other _ _ _ J) (F f If)). }
    revert No D. generalize (other u e). intros o. induction o as [|a o IHo]; cbn; auto. intros N D. inversion_clear N. constructor; auto. rewrite in_app_iff. intros [X|X]; auto. eapply D; eauto. Qed.

  (** ** Subgraphs *)
  Variables (order : list A -> list A) (eorder : list (A * A * W) -> list (A * A * W)).
  Hypothesis O : forall l, Permutation (order l) l.
  Hypothesis EO : forall l, Permutation (eorder l) l.
  Lemma subgraph_nodes g us x : In x (g_nodes (subgraph order eorder g us)) <-> In x (g_nodes g) /\ In x us.
  Proof. cbn. split.
    - intros I. apply (Permutation_in _ (O _)) in I. rewrite filter_In, mem_spec in I. auto.
    - intros I. apply (Permutation_in _ (Permutation_sym (O _))). rewrite filter_In, mem_spec. auto. Qed.
  Lemma subgraph_in g us u v w : In (u, v, w) (g_edges (subgraph order eorder g us)) <-> In (u, v, w) (g_edges g) /\ In u us /\ In v us.
  Proof. cbn. assert (K : In (u, v, w) (filter (fun e => mem (end1 e) us && mem (end2 e) us) (g_edges g)) <-> In (u, v, w) (g_edges g) /\ In u us /\ In v us)
      by (rewrite filter_In, andb_true_iff, !mem_spec; reflexivity). rewrite <- K. split; apply Permutation_in; [apply EO|apply Permutation_sym, EO]. Qed.
  Lemma subgraph_edges g us u v : has_edge (subgraph order eorder g us) u v <-> has_edge g u v /\ In u us /\ In v us.
  Proof. split.
    - intros (w & [I|I]); apply subgraph_in in I; (split; [exists w; tauto|tauto]).
    - intros ((w & [I|I]) & Iu & Iv); exists w; [left|right]; apply subgraph_in; auto. Qed.
  Lemma simple_perm (l m : list (A * A * W)) : Permutation l m -> ForallOrdPairs apart l -> ForallOrdPairs apart m.
  Proof. assert (S : forall e f : A * A * W, apart e f -> apart f e).
    { unfold apart. intros e f J. destruct (joins (end1 f) (end2 f) e) eqn:K; auto. rewrite <- J. symmetry. apply joins_spec. apply joins_spec in K. intuition. }
    induction 1 as [|e l m P IH|e f l|l m n P1 IH1 P2 IH2]; intros F; auto.
    - inversion_clear F. constructor; auto. eapply Permutation_Forall; eauto.
    - inversion_clear F as [|? ? F1 F2]. inversion_clear F2 as [|? ? F3 F4]. inversion_clear F1 as [|? ? J F5]. constructor; [constructor; auto|]. constructor; auto. Qed.
  Lemma wf_subgraph g us : wf_graph g -> wf_graph (subgraph order eorder g us).
  Proof. intros G. constructor.
    - cbn. eapply Permutation_NoDup; [apply Permutation_sym, O|]. apply NoDup_filter, G.
    - intros u v w I. apply subgraph_in in I as (I & Iu & Iv). rewrite !subgraph_nodes. apply (wg_ends G) in I. tauto.
    - cbn. eapply simple_perm; [apply Permutation_sym, EO|]. apply simple_filter, G. Qed.
End Facts.
