(** Proofs about the dominating-set method. *)
From Verif Require Import Base BaseFacts CoordSys SpecGeom CoordSysFacts GeomCombined CoordSysR Graph SpecGraph GraphFacts GraphComponents Paths SpecPath SpecCluster PathFacts BallisticFacts Dimension ShortestPathFacts DomSet SpecDomSet QueueFacts.
From Coq Require Import Reals Psatz.
From Coq Require Import Lra.
Open Scope list_scope.

Lemma rgt_true x y : rgt x y = true <-> (y < x)%R.
Proof. unfold rgt. destruct (Rlt_dec y x); split; auto; discriminate. Qed.
Lemma rgt_false x y : rgt x y = false <-> (x <= y)%R.
Proof. unfold rgt. destruct (Rlt_dec y x); split; auto; intros; try discriminate; lra. Qed.

Lemma insert_by_perm {A} (le : A -> A -> bool) x l : Permutation (insert_by le x l) (x :: l).
Proof. induction l as [|y l IH]; cbn; auto. destruct (le x y); auto. rewrite IH. apply perm_swap. Qed.
Lemma sort_by_perm {A} (le : A -> A -> bool) l : Permutation (sort_by le l) l.
Proof. induction l as [|x l IH]; cbn; auto. rewrite insert_by_perm. auto. Qed.

Lemma in_pairs {A} (l : list A) a b : In (a, b) (pairs l) -> In a l /\ In b l.
Proof. induction l as [|x l IH]; cbn; [tauto|]. rewrite in_app_iff. intros [I|I]; [apply in_map_iff in I as (y & E & I); injection E as -> ->; auto|]. apply IH in I. tauto. Qed.
Lemma pairs_all {A} (l : list A) a b : In a l -> In b l -> a <> b -> In (a, b) (pairs l) \/ In (b, a) (pairs l).
Proof. induction l as [|x l IH]; cbn; [tauto|]. rewrite !in_app_iff. intros [->|Ia] [->|Ib] N; [congruence| | |destruct (IH Ia Ib N); auto]; [left; left|right; left]; apply in_map_iff; eauto. Qed.

Lemma find_ext {A} (f g : A -> bool) l : (forall x, f x = g x) -> find f l = find g l.
Proof. intros E. induction l as [|x l IH]; cbn; auto. rewrite E, IH. reflexivity. Qed.

Lemma fold_add_node {A W} `{EqDec A} (l : list A) : forall (g : graph A W) x, In x (g_nodes (fold_left (@add_node A W _) l g)) <-> In x l \/ In x (g_nodes g).
Proof. induction l as [|y l IH]; intros g x; cbn [fold_left]; [cbn; tauto|]. rewrite IH, add_node_nodes. cbn. intuition. Qed.
Lemma fold_add_node_edges {A W} `{EqDec A} (l : list A) : forall (g : graph A W), g_edges (fold_left (@add_node A W _) l g) = g_edges g.
Proof. induction l as [|y l IH]; intros g; cbn [fold_left]; auto. rewrite IH. reflexivity. Qed.
Lemma fold_add_node_wf {A W} `{EqDec A} (l : list A) : forall (g : graph A W), wf_graph g -> wf_graph (fold_left (@add_node A W _) l g).
Proof. induction l as [|y l IH]; intros g Wf; cbn [fold_left]; auto. apply IH, wf_add_node; auto. Qed.

(** ** the reduced graph *)
Section Reduced.
  Variables (fs : R) (g : graph point R).
  Hypothesis Wf : wf_graph g.
  Lemma reduced_fold (es : list (point * point * R)) : forall (r : graph point unit) x y, has_edge (fold_left (fun r e => if rgt (fs / 3) (snd e) then add_edge r (end1 e) (end2 e) tt else r) es r) x y <->
    has_edge r x y \/ exists w, (In (x, y, w) es \/ In (y, x, w) es) /\ (w < fs / 3)%R.
  Proof. induction es as [|[[a b] w] es IH]; intros r x y; cbn [fold_left snd end1 end2 fst].
    - split; auto. intros [X|(w & [[]|[]] & _)]; auto.
    - rewrite IH. destruct (rgt (fs / 3) w) eqn:E.
      + apply rgt_true in E. unfold end1, end2; cbn [fst snd]. rewrite add_edge_edges. split.
        * intros [[(-> & ->)|[(-> & ->)|X]]|(w' & I & L)]; auto; right; [exists w; cbn; auto|exists w; cbn; auto|exists w'; cbn; intuition].
        * intros [X|(w' & [[X|I]|[X|I]] & L)]; auto; try (injection X as -> -> ->; auto); right; exists w'; auto.
      + apply rgt_false in E. split.
        * intros [X|(w' & I & L)]; auto. right. exists w'. cbn; intuition.
        * intros [X|(w' & [[X|I]|[X|I]] & L)]; auto; try (injection X as -> -> ->; exfalso; lra); right; exists w'; auto. Qed.
  Lemma reduced_fold_nodes (es : list (point * point * R)) : forall (r : graph point unit) x, (forall u v w, In (u, v, w) es -> In u (g_nodes r) /\ In v (g_nodes r)) ->
    In x (g_nodes (fold_left (fun r e => if rgt (fs / 3) (snd e) then add_edge r (end1 e) (end2 e) tt else r) es r)) <-> In x (g_nodes r).
  Proof. induction es as [|[[a b] w] es IH]; intros r x F; cbn [fold_left]; [tauto|]. destruct (F a b w (or_introl eq_refl)) as (Ia & Ib).
    rewrite IH.
    - destruct (rgt _ _); [|tauto]. rewrite add_edge_nodes. unfold end1, end2; cbn. intuition; subst; auto.
    - intros u v w' I. destruct (F u v w' (or_intror I)). destruct (rgt _ _); auto. rewrite !add_edge_nodes. auto. Qed.
  Lemma reduced_fold_wf (es : list (point * point * R)) : forall (r : graph point unit), wf_graph r -> wf_graph (fold_left (fun r e => if rgt (fs / 3) (snd e) then add_edge r (end1 e) (end2 e) tt else r) es r).
  Proof. induction es as [|e es IH]; intros r W; cbn [fold_left]; auto. apply IH. destruct (rgt _ _); auto. apply wf_add_edge; auto. Qed.
  Lemma reduced_nodes x : In x (g_nodes (reduced_graph fs g)) <-> In x (g_nodes g).
  Proof. unfold reduced_graph. rewrite reduced_fold_nodes, fold_add_node; [cbn; tauto|]. intros u v w I. rewrite !fold_add_node. apply (wg_ends Wf) in I. tauto. Qed.
  Lemma reduced_edges x y : has_edge (reduced_graph fs g) x y <-> exists w, (In (x, y, w) (g_edges g) \/ In (y, x, w) (g_edges g)) /\ (w < fs / 3)%R.
  Proof. unfold reduced_graph. rewrite reduced_fold. split; auto. intros [(w & X)|X]; auto. rewrite fold_add_node_edges in X. cbn in X. tauto. Qed.
  Lemma reduced_wf : wf_graph (reduced_graph fs g).
  Proof. apply reduced_fold_wf, fold_add_node_wf, wf_empty. Qed.
End Reduced.

Section DS.
  Variables (order : list point -> list point) (eorder : list (point * point * (R * option R)) -> list (point * point * (R * option R))).
  Variables (spath : graph point R -> point -> point -> option (list point)) (domset : graph point unit -> list point).
  Variables (cs : coordsys) (fs : R) (c : graph point R).
  Hypothesis Ord : any_order order.
  Hypothesis EOrd : any_order eorder.
  Hypothesis Sp : good_spath spath.
  Hypothesis Dm : good_domset domset.
  Hypothesis B : wf_box cs.
  Hypothesis Fp : (0 < fs)%R.
  Hypothesis Wf : wf_graph c.
  Hypothesis Cn : connected c.
  Hypothesis Ne : g_nodes c <> [].
  Hypothesis Ps : forall x, In x (g_nodes c) -> is_pos cs x.
  Hypothesis At : forall u v w, In (u, v, w) (g_edges c) -> w = distance cs u v.
  Hypothesis Near : forall u v, has_edge c u v -> (distance cs u v <= fs)%R.
  Set Default Proof Using "All".

  Definition chosen : list point := domset (reduced_graph fs c).
  Definition sub0 : dgraph := subgraph order eorder (map_attr (fun d => (d, None)) c) chosen.
  Definition full : dgraph := with_weights c.

  Lemma chosen_in x : In x chosen -> In x (g_nodes c).
  Proof. intros I. apply (reduced_nodes fs c Wf). apply (Dm _ (reduced_wf fs c)); auto. Qed.
  Lemma chosen_near x : In x (g_nodes c) -> exists y, In y chosen /\ (x = y \/ has_edge c x y /\ (distance cs x y < fs / 3)%R).
  Proof. intros I. destruct (Dm _ (reduced_wf fs c)) as (_ & D). destruct (D x) as [X|(y & Iy & E)]; [apply reduced_nodes; auto|exists x; auto|].
    exists y. split; auto. right. apply reduced_edges in E as (w & [J|J] & L); auto; rewrite (At _ _ _ J) in L; (split; [exists w; auto|]); auto.
    apply (wg_ends Wf) in J as (Jy & Jx). rewrite (distance_sym cs x y); auto. Qed.

  (** graphs made of edges of the cluster *)
  Record dsub (h : dgraph) : Prop := {
    ds_wf : wf_graph h;
    ds_nodes : incl (g_nodes h) (g_nodes c);
    ds_edges : forall u v a, In (u, v, a) (g_edges h) -> has_edge c u v /\ fst a = distance cs u v /\ match snd a with Some w => (0 <= w)%R | None => True end
  }.
  Lemma ds_edge h u v : dsub h -> has_edge h u v -> has_edge c u v.
  Proof. intros D (a & [I|I]); apply (ds_edges h D) in I as (X & _); auto. apply has_edge_sym; auto. Qed.
  Lemma dist_graph_ok h : dsub h -> wf_graph (dist_graph h) /\ nonneg_weights (dist_graph h) /\ (forall u v, has_edge (dist_graph h) u v <-> has_edge h u v) /\
    forall u p, In u (g_nodes h) -> follows (has_edge h) u p -> path_weight (dist_graph h) (u :: p) = total cs u p.
  Proof. intros D. assert (W : wf_graph (dist_graph h)) by (apply wf_map_attr, D). assert (E : forall u v, has_edge (dist_graph h) u v <-> has_edge h u v) by (intros; apply map_attr_edges).
    split; auto. split; [|split; auto].
    - intros e I. cbn in I. apply in_map_iff in I as ([[u v] a] & <- & I). apply (ds_edges h D) in I as (_ & X & _). cbn [snd]. rewrite X. apply distance_nonneg.
    - intros u p. revert u. induction p as [|x p IH]; intros u Iu F; [reflexivity|]. rewrite path_weight_wsum in *. cbn [wsum total]. destruct F as (Fx & F). pose proof (wf_ends (ds_wf h D) Fx) as (_ & Ix). rewrite <- (IH x); auto. rewrite path_weight_wsum. f_equal.
      unfold edge_weight. destruct Fx as (a & [J|J]).
      + rewrite (attr_in (dist_graph h) u x (fst a) W). { apply (ds_edges h D) in J as (_ & X & _). auto. } apply in_map_iff. exists (u, x, a). auto.
      + assert (X : edge_attr (dist_graph h) u x = edge_attr (dist_graph h) x u). { unfold edge_attr. rewrite (find_ext (joins u x) (joins x u)); auto. intros e. apply joins_sym. }
        rewrite X. rewrite (attr_in (dist_graph h) x u (fst a) W). { pose proof (ds_edges h D _ _ _ J) as (_ & Y & _). rewrite Y. apply (ds_nodes h D) in Iu, Ix. apply distance_sym; auto. } apply in_map_iff. exists (x, u, a). auto. Qed.

  Lemma sub0_ok : dsub sub0.
  Proof. constructor.
    - apply wf_subgraph; auto. apply wf_map_attr; auto.
    - intros x Ix. apply subgraph_nodes in Ix; auto. tauto.
    - intros u v a I. apply subgraph_in in I as (I & _); auto. cbn in I. apply in_map_iff in I as ([[u' v'] w] & E & I). cbn in E. injection E as -> -> <-. cbn. split; [exists w; auto|]. split; [apply At; auto|auto]. Qed.
  Lemma sub0_nodes x : In x (g_nodes sub0) <-> In x chosen.
  Proof. unfold sub0. rewrite subgraph_nodes; auto. cbn. split; [tauto|]. intros I. split; auto. apply chosen_in; auto. Qed.
  Lemma sub0_edges u v : has_edge sub0 u v <-> within c chosen u v.
  Proof. unfold sub0. rewrite subgraph_edges; auto. rewrite map_attr_edges. reflexivity. Qed.
  Lemma full_ok : dsub full.
  Proof. constructor.
    - apply wf_map_attr; auto.
    - intros x Ix. auto.
    - intros u v a I. cbn in I. apply in_map_iff in I as ([[u' v'] w] & E & I). cbn [fst snd] in E. injection E as -> -> <-. cbn [fst snd]. split; [exists w; auto|]. split; [apply At; auto|]. change (0 <= w ^ 4)%R. apply pow_le. rewrite (At _ _ _ I). apply distance_nonneg. Qed.
  Lemma full_edges u v : has_edge full u v <-> has_edge c u v.
  Proof. apply map_attr_edges. Qed.

  Lemma follows_iff {A} (P Q : A -> A -> Prop) : (forall a b, P a b <-> Q a b) -> forall u p, follows P u p <-> follows Q u p.
  Proof. intros E u p. revert u. induction p as [|x p IH]; intros u; cbn; [tauto|]. rewrite E, IH. tauto. Qed.

  (** lengths of shortest paths *)
  Lemma spath_length_ok h u v : dsub h -> In u (g_nodes h) -> In v (g_nodes h) ->
    match spath (dist_graph h) u v with
    | None => ~ linked (has_edge h) u v
    | Some p => exists q, p = u :: q /\ follows (has_edge h) u q /\ last (u :: q) u = v /\ spath_length spath h u v = Ok (total cs u q) /\
        forall q', follows (has_edge h) u q' -> last (u :: q') u = v -> (total cs u q <= total cs u q')%R
    end.
  Proof. intros D Iu Iv. destruct (dist_graph_ok h D) as (W & Nn & E & T). pose proof (Sp (dist_graph h) u v W Nn Iu Iv) as X. unfold spath_length. destruct (spath (dist_graph h) u v) as [p|].
    - destruct X as ((q & -> & F & L) & _ & M). exists q. split; auto. assert (F' : follows (has_edge h) u q) by (apply (follows_iff _ _ E); auto). split; auto. split; auto. split; [rewrite T; auto|].
      intros q' Fq Lq. rewrite <- !T; auto. apply M. exists q'. split; auto. split; auto. apply (follows_iff _ _ E); auto.
    - intros L. apply X. apply (@linked_mono _ (has_edge h)); auto. intros a b Y. apply E; auto. Qed.
  Lemma full_shortest u v : In u (g_nodes c) -> In v (g_nodes c) -> exists q, spath (dist_graph full) u v = Some (u :: q) /\ shortest cs c u v q /\ spath_length spath full u v = Ok (total cs u q).
  Proof. intros Iu Iv. pose proof (spath_length_ok full u v full_ok Iu Iv) as X. destruct (spath (dist_graph full) u v) as [p|].
    - destruct X as (q & -> & F & L & S & M). exists q. split; auto. split; auto. split; [apply (follows_iff _ _ full_edges); auto|]. split; auto. intros q' Fq. apply M. apply (follows_iff _ _ full_edges); auto.
    - exfalso. apply X. apply (@linked_mono _ (has_edge c)); [intros; apply full_edges; auto|]. apply Cn; auto. Qed.

  (** what the first pass finds *)
  Definition is_hole (x : point * point * R) : Prop := hole cs fs c chosen (fst (fst x)) (snd (fst x)).
  Lemma find_holes_ok ps : (forall a b, In (a, b) ps -> In a chosen /\ In b chosen) ->
    (find_holes spath cs fs sub0 full ps = Err NetworkXNoPath /\ exists a b, In a chosen /\ In b chosen /\ ~ linked (within c chosen) a b) \/
    exists hs, find_holes spath cs fs sub0 full ps = Ok hs /\ Forall is_hole hs /\ forall a b, In (a, b) ps -> (distance cs a b < 2 * fs)%R -> linked (within c chosen) a b.
  Proof. induction ps as [|[a b] ps IH]; intros I; [right; exists []; split; auto; split; [constructor|intros a b []]|].
    destruct (I a b (or_introl eq_refl)) as (Ia & Ib). specialize (IH (fun x y J => I x y (or_intror J))). cbn [find_holes].
    destruct (rgt (2 * fs) (distance cs a b)) eqn:E1.
    2:{ destruct IH as [IH|(hs & E & H & L)]; [left; auto|right; exists hs; split; auto; split; auto]. intros x y [J|J]; auto. injection J as -> ->. apply rgt_false in E1. intros; lra. }
    apply rgt_true in E1. pose proof (spath_length_ok sub0 a b sub0_ok (proj2 (sub0_nodes a) Ia) (proj2 (sub0_nodes b) Ib)) as X. destruct (spath (dist_graph sub0) a b) as [p|] eqn:Es.
    2:{ left. split; [unfold spath_length at 1; rewrite Es; reflexivity|]. exists a, b. split; auto. split; auto. intros Y. apply X. apply (@linked_mono _ (within c chosen)); auto. intros; apply sub0_edges; auto. }
    destruct X as (q & -> & F & L & Eq & M). rewrite Eq. cbn [bind]. assert (F' : follows (within c chosen) a q) by (apply (follows_iff _ _ sub0_edges); auto).
    assert (Lab : linked (within c chosen) a b) by (exists q; auto).
    assert (Skip : find_holes spath cs fs sub0 full ps = Err NetworkXNoPath /\ (exists a b, In a chosen /\ In b chosen /\ ~ linked (within c chosen) a b) \/
      exists hs, find_holes spath cs fs sub0 full ps = Ok hs /\ Forall is_hole hs /\ forall x y, In (x, y) ((a, b) :: ps) -> (distance cs x y < 2 * fs)%R -> linked (within c chosen) x y).
    { destruct IH as [IH|(hs & E & H & L')]; [left; auto|right; exists hs; split; auto; split; auto]. intros x y [J|J]; auto. injection J as -> ->. auto. }
    destruct (rgt (total cs a q) (Rmax fs (patch_cutoff * distance cs a b))) eqn:E2; [|exact Skip]. apply rgt_true in E2.
    destruct (full_shortest a b (chosen_in a Ia) (chosen_in b Ib)) as (q0 & _ & S0 & ->). cbn [bind].
    destruct Skip as [(-> & Y)|(hs & -> & H & L')]; [left; auto|]. cbn [bind]. right.
    destruct (rgt (total cs a q) (patch_cutoff * total cs a q0) && rgt (2 * fs) (total cs a q0)) eqn:E3; [|exists hs; auto].
    apply andb_true_iff in E3 as (E3 & E4). apply rgt_true in E3, E4. eexists. split; [reflexivity|]. split; auto. constructor; auto. split; auto. split; auto. split; auto. exists q0. split; auto. split; auto.
    intros q' Fq Lq. cbn [fst snd] in *. assert (total cs a q <= total cs a q')%R by (apply M; auto; apply (follows_iff _ _ sub0_edges); auto).
    pose proof (Rmax_l fs (patch_cutoff * distance cs a b)). pose proof (Rmax_r fs (patch_cutoff * distance cs a b)). unfold patch_cutoff in *. repeat split; lra. Qed.

  (** if the first pass succeeds, the chosen positions are linked *)
  Lemma holes_linked : (forall a b, In (a, b) (pairs (g_nodes sub0)) -> (distance cs a b < 2 * fs)%R -> linked (within c chosen) a b) ->
    forall a b, In a chosen -> In b chosen -> linked (within c chosen) a b.
  Proof. intros Hl.
    assert (Cl : forall a b, In a chosen -> In b chosen -> (distance cs a b < 2 * fs)%R -> linked (within c chosen) a b).
    { intros a b Ia Ib L. destruct (eq_dec a b) as [->|N]; [apply linked_refl|]. destruct (pairs_all (g_nodes sub0) a b) as [J|J]; auto; try (apply sub0_nodes; auto).
      apply linked_sym; [intros x y (E & X & Y); split; [apply has_edge_sym; auto|auto]|]. apply Hl; auto. rewrite distance_sym; auto; apply Ps, chosen_in; auto. }
    intros a b Ia Ib. pose proof (Cn a b (chosen_in a Ia) (chosen_in b Ib)) as L.
    assert (P : forall d, In d chosen -> (b = d \/ has_edge c b d /\ (distance cs b d < fs / 3)%R) -> linked (within c chosen) a d); [|apply P; auto].
    apply (linked_closed (R := has_edge c) (fun z => forall d, In d chosen -> (z = d \/ has_edge c z d /\ (distance cs z d < fs / 3)%R) -> linked (within c chosen) a d)) with a; auto.
    - intros z z' IHz E d' Id' Nd'. pose proof (wf_ends Wf E) as (Iz & Iz'). destruct (chosen_near z Iz) as (d & Id & Nd). apply linked_trans with d; [apply IHz; auto|]. apply Cl; auto.
      assert (distance cs d z < fs / 3)%R. { destruct Nd as [->|(_ & Nd)]; [|rewrite distance_sym; auto; apply Ps, chosen_in; auto]. assert (X : distance cs d d = 0%R) by (apply distance_zero; auto; destruct (periodic cs); [apply lattice_eq_refl; auto|auto]). lra. }
      assert (distance cs z' d' < fs / 3)%R. { destruct Nd' as [->|(_ & Nd')]; [|auto]. assert (X : distance cs d' d' = 0%R) by (apply distance_zero; auto; destruct (periodic cs); [apply lattice_eq_refl; auto|auto]). lra. }
      pose proof (Near z z' E). pose proof (Ps d (chosen_in d Id)). pose proof (Ps d' (chosen_in d' Id')).
      assert (distance cs d d' <= distance cs d z + distance cs z d')%R by (apply distance_triangle; auto). assert (distance cs z d' <= distance cs z z' + distance cs z' d')%R by (apply distance_triangle; auto). lra.
    - intros d Id [->|(_ & Nd)]; [apply linked_refl|]. apply Cl; auto. lra. Qed.

  (** ** patching *)
  Lemma add_edge_in (h : dgraph) u v w x y a : In (x, y, a) (g_edges (add_edge h u v w)) -> In (x, y, a) (g_edges h) \/ (a = w /\ ((x = u /\ y = v) \/ (x = v /\ y = u))).
  Proof. unfold add_edge. destruct (adj h u v); cbn [g_edges].
    - intros I. apply in_map_iff in I as (e & E & I). destruct (joins u v e) eqn:J; [|subst; auto]. right. apply joins_spec in J. unfold end1, end2 in J. destruct e as [[e1 e2] e3]. cbn in *. injection E as <- <- <-. split; auto.
    - intros I. apply in_app_iff in I as [I|[E|[]]]; auto. injection E as <- <- <-. auto. Qed.
  Lemma full_attr u v : has_edge c u v -> exists d w, edge_attr full u v = Some (d, Some w) /\ d = distance cs u v /\ (0 <= w)%R.
  Proof. intros E. assert (E' : has_edge full u v) by (apply full_edges; auto). unfold edge_attr. destruct (find (joins u v) (g_edges full)) as [e|] eqn:F.
    - apply find_some in F as (I & J). apply joins_spec in J. destruct e as [[x y] [d o]]. pose proof (ds_edges full full_ok _ _ _ I) as (_ & X & Y). cbn in I. apply in_map_iff in I as ([[x' y'] w] & Eq & I). cbn [fst snd] in Eq.
      inversion Eq; subst. cbn [fst snd] in *. eexists _, _. split; [reflexivity|]. split; auto. unfold end1, end2 in J. cbn in J. destruct (wf_ends Wf E) as (Iu & Iv). rewrite X. destruct J as [(-> & ->)|(-> & ->)]; auto. apply distance_sym; auto.
    - exfalso. apply has_edge_in in E' as (e & I & J). pose proof (find_none _ _ F e I). congruence. Qed.

  Definition patch_fold (h : dgraph) (es : list (point * point)) : res dgraph :=
    fold_left (fun r e => let! s := r in match edge_attr full (fst e) (snd e) with Some a => Ok (add_edge s (fst e) (snd e) a) | None => Err KeyError end) es (Ok h).

  Lemma patch_fold_ok q : forall u h, dsub h -> In u (g_nodes h) -> follows (has_edge c) u q ->
    exists h', patch_fold h (path_edges (u :: q)) = Ok h' /\ dsub h' /\ (forall x, In x (g_nodes h') <-> In x (g_nodes h) \/ In x q) /\ (forall x y, has_edge h x y -> has_edge h' x y) /\
      (forall x y a, In (x, y, a) (g_edges h') -> In (x, y, a) (g_edges h) \/ passes (u :: q) x y /\ snd a <> None) /\ (forall x, In x q -> linked (has_edge h') u x) /\ follows (has_edge h') u q.
  Proof. induction q as [|v q IH]; intros u h D Iu F.
    - exists h. cbn. split; auto. split; auto. split; [tauto|]. split; auto. split; auto. split; [|auto]. tauto.
    - destruct F as (E & F). destruct (full_attr u v E) as (d & w & Ea & Ed & Wn). destruct (wf_ends Wf E) as (Igu & Igv). unfold patch_fold. cbn [path_edges fold_left fst snd bind]. rewrite Ea. fold (patch_fold (add_edge h u v (d, Some w)) (path_edges (v :: q))).
      destruct (IH v (add_edge h u v (d, Some w))) as (h' & Eh & D' & N' & M' & A' & L' & Fo'); auto.
      + constructor.
        * apply wf_add_edge, D.
        * intros x Ix. apply add_edge_nodes in Ix as [->|[->|Ix]]; auto. apply (ds_nodes h D); auto.
        * intros x y a I. apply add_edge_in in I as [I|(-> & [(-> & ->)|(-> & ->)])]; [apply (ds_edges h D); auto| |]; cbn [fst snd]; (split; [auto using has_edge_sym|]); split; auto. rewrite Ed. apply distance_sym; auto.
      + apply add_edge_nodes; auto.
      + exists h'. split; auto. split; auto. split; [|split; [|split; [|split]]].
        * intros x. rewrite N', add_edge_nodes. cbn [In]. intuition; subst; auto.
        * intros x y X. apply M'. apply add_edge_edges. auto.
        * intros x y a I. apply A' in I as [I|I].
          -- apply add_edge_in in I as [I|(-> & X)]; auto. right. split; [|discriminate]. unfold passes. cbn [path_edges In]. destruct X as [(-> & ->)|(-> & ->)]; auto.
          -- right. destruct I as (I & Na). split; auto. unfold passes in *. change (path_edges (u :: v :: q)) with ((u, v) :: path_edges (v :: q)). cbn [In]. tauto.
        * assert (Euv : has_edge h' u v) by (apply M', add_edge_edges; auto). intros x [<-|Ix]; [apply linked_one; auto|]. apply linked_step with v; auto.
        * split; auto. apply M', add_edge_edges; auto. Qed.

  Record inv (h : dgraph) : Prop := {
    iv_sub : dsub h;
    iv_chosen : incl chosen (g_nodes h);
    iv_conn : connected h;
    iv_within : forall a b, within c chosen a b -> has_edge h a b;
    iv_weight : forall u v a, In (u, v, a) (g_edges h) -> snd a <> None -> exists s t p, hole cs fs c chosen s t /\ shortest cs c s t p /\ passes (s :: p) u v;
    iv_none : forall u v a, In (u, v, a) (g_edges h) -> snd a = None -> within c chosen u v
  }.
  Lemma patch_hole_ok h s t : inv h -> hole cs fs c chosen s t -> exists h' q, patch_subgraph_hole spath h full s t = Ok h' /\ inv h' /\ shortest cs c s t q /\ follows (has_edge h') s q /\ (forall x y, has_edge h x y -> has_edge h' x y) /\
    forall u v a, In (u, v, a) (g_edges h') -> In (u, v, a) (g_edges h) \/ passes (s :: q) u v.
  Proof. intros Iv Hh. pose proof Hh as (Is & It & _). destruct (full_shortest s t (chosen_in s Is) (chosen_in t It)) as (q & Es & Sh & _). unfold patch_subgraph_hole. rewrite Es. unfold patch_path. cbn [tl].
    set (h0 := fold_left (@add_node point _ _) (removelast q) h). pose proof Sh as (F & L & _).
    assert (Inq : incl q (g_nodes c)). { intros x Ix. apply (follows_nodes c s q Wf (chosen_in s Is) F). right; auto. }
    assert (Rq : incl (removelast q) q). { clear. induction q as [|x q IH]; [intros z []|]. cbn. destruct q; [intros z []|]. intros z [->|Iz]; [left; auto|right; apply IH; auto]. }
    assert (E0 : g_edges h0 = g_edges h) by apply fold_add_node_edges.
    assert (D0 : dsub h0). { constructor; [apply fold_add_node_wf, Iv| |rewrite E0; apply Iv]. intros x Ix. apply fold_add_node in Ix as [Ix|Ix]; [auto|]. apply (ds_nodes h (iv_sub h Iv)); auto. }
    assert (N0 : forall x, In x (g_nodes h) -> In x (g_nodes h0)) by (intros; apply fold_add_node; auto).
    destruct (patch_fold_ok q s h0 D0) as (h' & Eh & D' & N' & M' & A' & L' & Fo'); auto; [apply N0, Iv; auto|]. exists h', q. split; [exact Eh|].
    assert (M0 : forall x y, has_edge h x y -> has_edge h' x y). { intros x y X. apply M'. unfold has_edge in *. rewrite E0. auto. }
    assert (To : forall x, In x (g_nodes h') -> linked (has_edge h') s x).
    { intros x Ix. apply N' in Ix as [Ix|Ix]; auto. apply fold_add_node in Ix as [Ix|Ix]; auto. apply (@linked_mono _ (has_edge h)); auto. apply (iv_conn h Iv); auto. apply Iv; auto. }
    split; [|split; [exact Sh|split; [exact Fo'|split; [exact M0|]]]]. 2:{ intros u v a I. apply A' in I as [I|(I & _)]; auto. rewrite E0 in I. auto. }
    constructor; auto.
    - intros x Ix. apply N'. left. apply N0, Iv; auto.
    - intros x y Ix Iy. apply linked_trans with s; auto. apply linked_sym; auto using has_edge_sym.
    - intros a b X. apply M0, Iv; auto.
    - intros u v a I Na. apply A' in I as [I|I]; [rewrite E0 in I; apply (iv_weight h Iv u v a); auto|]. exists s, t, q. tauto.
    - intros u v a I Na. apply A' in I as [I|(_ & I)]; [rewrite E0 in I; apply (iv_none h Iv u v a); auto|contradiction]. Qed.
  Lemma patch_holes_ok hs : forall h, inv h -> Forall is_hole hs -> exists h', patch_holes spath full hs h = Ok h' /\ inv h'.
  Proof. induction hs as [|[[a b] d] hs IH]; intros h Iv Fh; [exists h; auto|]. inversion Fh as [|? ? Hh Fh']; subst. cbn [patch_holes]. unfold is_hole in Hh. cbn [fst snd] in Hh. pose proof Hh as (Ia & Ib & _).
    pose proof (spath_length_ok h a b (iv_sub h Iv) (iv_chosen h Iv a Ia) (iv_chosen h Iv b Ib)) as X. destruct (spath (dist_graph h) a b) as [p|].
    2:{ exfalso. apply X. apply (iv_conn h Iv); apply Iv; auto. }
    destruct X as (q & _ & _ & _ & -> & _). cbn [bind]. destruct (rgt _ _).
    - destruct (patch_hole_ok h a b Iv Hh) as (h' & q' & -> & Iv' & _). cbn [bind]. apply IH; auto.
    - cbn [bind]. apply IH; auto. Qed.
  Lemma sub0_inv : (forall a b, In a chosen -> In b chosen -> linked (within c chosen) a b) -> inv sub0.
  Proof. intros L. constructor.
    - apply sub0_ok.
    - intros x Ix. apply sub0_nodes; auto.
    - intros x y Ix Iy. apply sub0_nodes in Ix, Iy. apply (@linked_mono _ (within c chosen)); auto. intros; apply sub0_edges; auto.
    - intros a b X. apply sub0_edges; auto.
    - intros u v a I Na. exfalso. apply Na. apply subgraph_in in I as (I & _); auto. cbn in I. apply in_map_iff in I as (e & E & _). injection E as _ <-. reflexivity.
    - intros u v a I _. apply sub0_edges. exists a. auto. Qed.

  (** ** removal of duplicates *)
  Definition inv2 (h : dgraph) : Prop := dsub h /\ connected h /\ incl chosen (g_nodes h).
  Lemma weight_graph_ok h : dsub h -> wf_graph (weight_graph h) /\ nonneg_weights (weight_graph h).
  Proof. intros D. split; [apply wf_map_attr, D|]. intros e I. cbn in I. apply in_map_iff in I as ([[u v] a] & <- & I). apply (ds_edges h D) in I as (_ & _ & X). cbn [snd]. destruct (snd a); auto. lra. Qed.
  Lemma detour (h : dgraph) u v p : is_path h u v p -> NoDup p -> (2 < length p)%nat -> linked (has_edge (remove_edge h u v)) u v.
  Proof. intros (q & -> & F & L) Nd Len. exists q. split; auto. destruct q as [|x q]; [cbn in Len; lia|]. destruct q as [|y q]; [cbn in Len; lia|].
    assert (Nxu : x <> u /\ ~ In u (y :: q)) by (inversion Nd as [|? ? X _]; split; intros Z; apply X; [left; auto|right; auto]).
    assert (Nxv : x <> v). { intros ->. rewrite !last_cons in L. pose proof (last_in q y u) as Z. rewrite L in Z. inversion Nd as [|? ? _ N2]. inversion N2; auto. }
    destruct F as (Fx & F). split.
    - apply remove_edge_edges. split; auto. intros [(_ & X)|(X & Y)]; [tauto|]. subst. tauto.
    - assert (Nu : ~ In u (x :: y :: q)) by (intros [X|X]; tauto). clear - F Nu. remember (y :: q) as l. clear Heql. revert x F Nu. induction l as [|z l IH]; intros x F Nu; cbn; auto. destruct F as (Fz & F). split.
      + apply remove_edge_edges. split; auto. intros [(-> & _)|(_ & ->)]; apply Nu; cbn; auto.
      + apply IH; auto. intros I. apply Nu. right; auto. Qed.
  Lemma remove_edge_inv2 h u v : inv2 h -> linked (has_edge (remove_edge h u v)) u v -> inv2 (remove_edge h u v).
  Proof. intros (D & C & I) L. split; [|split; auto].
    - constructor; [apply wf_remove_edge, D|apply D|]. intros x y a J. apply (ds_edges h D). cbn in J. apply filter_In in J. tauto.
    - intros x y Ix Iy. specialize (C x y Ix Iy). apply (linked_closed (R := has_edge h) (fun z => linked (has_edge (remove_edge h u v)) x z)) with x; auto; [|apply linked_refl].
      intros a b La E. apply linked_trans with a; auto. destruct (eq_dec a u) as [->|N1]; [destruct (eq_dec b v) as [->|N2]; auto|].
      + apply linked_one, remove_edge_edges. split; auto. intros [(_ & X)|(X & Y)]; subst; tauto.
      + destruct (eq_dec a v) as [->|N3]; [destruct (eq_dec b u) as [->|N4]|].
        * apply linked_sym; auto using has_edge_sym.
        * apply linked_one, remove_edge_edges. split; auto. intros [(X & _)|(_ & X)]; subst; tauto.
        * apply linked_one, remove_edge_edges. split; auto. intros [(X & _)|(X & _)]; subst; tauto. Qed.
  Lemma remove_duplicates_ok es : forall h, inv2 h -> (forall e, In e es -> In (end1 e) (g_nodes h) /\ In (end2 e) (g_nodes h)) -> exists h', remove_duplicates spath es h = Ok h' /\ inv2 h'.
  Proof. induction es as [|e es IH]; intros h Iv Ie; [exists h; auto|]. cbn [remove_duplicates]. destruct (Ie e (or_introl eq_refl)) as (I1 & I2). destruct (weight_graph_ok h) as (W & Nn); [apply Iv|].
    pose proof (Sp (weight_graph h) (end1 e) (end2 e) W Nn I1 I2) as X. destruct (spath _ _ _) as [p|].
    - destruct X as (P & Nd & _). assert (P' : is_path h (end1 e) (end2 e) p). { destruct P as (q & -> & F & L). exists q. split; auto. split; auto. apply (follows_iff (has_edge (weight_graph h))); auto. intros; apply map_attr_edges. }
      destruct (2 <? length p)%nat eqn:El.
      + apply Nat.ltb_lt in El. apply IH; [apply remove_edge_inv2; auto; apply (detour h _ _ p); auto|]. intros e' J. apply Ie. right; auto.
      + apply IH; auto. intros e' J. apply Ie. right; auto.
    - exfalso. apply X. apply (@linked_mono _ (has_edge h)); [intros; apply map_attr_edges; auto|]. apply Iv; auto. Qed.

  (** ** the method *)
  Definition evaluate := evaluate_line_dominating_set order eorder spath domset cs fs c.
  Theorem dominating_set_cases :
    (evaluate = Err NetworkXNoPath /\ exists a b, In a chosen /\ In b chosen /\ ~ linked (within c chosen) a b) \/
    ((forall a b, In a chosen -> In b chosen -> linked (within c chosen) a b) /\
     ((exists r, evaluate = Ok r /\ inv2 r /\ forall a b, within c chosen a b -> exists s t p, hole cs fs c chosen s t /\ shortest cs c s t p /\ passes (s :: p) a b) \/
      evaluate = Err TypeError /\ exists a b, within c chosen a b)).
  Proof. unfold evaluate, evaluate_line_dominating_set. fold chosen. fold sub0. fold full. unfold patch_all_subgraph_holes.
    destruct (find_holes_ok (pairs (g_nodes sub0))) as [(-> & X)|(hs & -> & Fh & L)].
    { intros a b I. apply in_pairs in I. rewrite !sub0_nodes in I. auto. }
    { left. auto. }
    right. cbn [bind]. pose proof (holes_linked L) as Lk. split; auto. destruct (patch_holes_ok (sort_by (fun a b => rle (snd a) (snd b)) hs) sub0 (sub0_inv Lk)) as (h & -> & Iv).
    { apply Forall_forall. intros x Ix. apply (proj1 (Forall_forall _ _) Fh). apply (Permutation_in _ (sort_by_perm _ _) Ix). }
    cbn [bind]. unfold remove_duplicate_paths. destruct (forallb has_weight (g_edges h)) eqn:Fw.
    - left. destruct (remove_duplicates_ok (sort_by (fun a b => rle (- weight_of a) (- weight_of b)) (g_edges h)) h) as (r & -> & Ir).
      + split; [apply Iv|]. split; apply Iv.
      + intros e J. apply (Permutation_in _ (sort_by_perm _ _)) in J. destruct e as [[u v] a]. apply (wg_ends (ds_wf h (iv_sub h Iv)) _ _ _ J).
      + exists r. split; auto. split; auto. intros a b X. pose proof (iv_within h Iv a b X) as (w & J). rewrite forallb_forall in Fw. destruct J as [J|J].
        * apply (iv_weight h Iv a b w); auto. specialize (Fw _ J). unfold has_weight in Fw. cbn in Fw. destruct (snd w); discriminate.
        * destruct (iv_weight h Iv b a w) as (s & t & p & X1 & X2 & X3); auto. { specialize (Fw _ J). unfold has_weight in Fw. cbn in Fw. destruct (snd w); discriminate. } exists s, t, p. split; auto. split; auto. unfold passes in *. tauto.
    - right. split; auto. assert (Ex : exists e, In e (g_edges h) /\ has_weight e = false).
      { clear - Fw. induction (g_edges h) as [|e l IH]; [discriminate|]. cbn in Fw. destruct (has_weight e) eqn:E; [|exists e; cbn; auto]. destruct (IH Fw) as (e' & I & X). exists e'. cbn; auto. }
      destruct Ex as ([[u v] a] & I & Nw). exists u, v. apply (iv_none h Iv u v a); auto. unfold has_weight in Nw. cbn in Nw. destruct (snd a); [discriminate|auto]. Qed.
End DS.
