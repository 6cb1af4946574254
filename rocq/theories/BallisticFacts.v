(** Facts about the ballistic method. *)
From Verif Require Import Base BaseFacts CoordSys SpecGeom CoordSysFacts GeomCombined CoordSysR Graph SpecGraph GraphFacts SpecCluster Dimension VolumeFacts LocalDim Ballistic.
From Coq Require Import Reals Psatz.
From Coq Require Import Lra.
Open Scope list_scope.

Lemma is_dominating_spec {A W} `{EqDec A} (g : graph A W) nb : incl nb (g_nodes g) -> is_dominating_set g nb = true <-> dominates g nb.
Proof. intros Inc. unfold is_dominating_set, dominates. rewrite forallb_forall.
  assert (F : filter (fun x => mem x (g_nodes g)) nb = nb).
  { clear - Inc. induction nb as [|a nb IH]; cbn; auto. rewrite (proj2 (mem_spec a (g_nodes g))) by (apply Inc; left; auto). f_equal. apply IH. intros x X. apply Inc. right; auto. }
  rewrite F. split; intros D x Ix; specialize (D x Ix).
  - apply orb_true_iff in D as [D|D]; [left; apply mem_spec; auto|]. apply mem_spec, in_flat_map in D as (y & Iy & D). right. exists y. split; auto. apply has_edge_sym. apply in_neighbors. auto.
  - apply orb_true_iff. destruct D as [D|(y & Iy & D)]; [left; apply mem_spec; auto|]. right. apply mem_spec, in_flat_map. exists y. split; auto. apply in_neighbors, has_edge_sym. auto. Qed.
Lemma degree_neighbors {A W} `{EqDec A} (g : graph A W) u : (0 < degree g u)%nat -> neighbors g u <> [].
Proof. unfold degree, neighbors, list_sum. induction (g_edges g) as [|e l IH]; cbn; [lia|]. intros D X. apply app_eq_nil in X as (X1 & X2). apply IH; auto. unfold other in X1. destruct (eqb (end1 e) u), (eqb (end2 e) u); try discriminate. lia. Qed.

Lemma set_add_length {A} `{EqDec A} (x : A) l : length (set_add x l) = (length l + if mem x l then 0 else 1)%nat.
Proof. unfold set_add. destruct (mem x l); [lia|]. rewrite app_length. cbn. lia. Qed.
Lemma incl_length_lt {A} `{EqDec A} (l m : list A) x : NoDup l -> incl l m -> In x m -> ~ In x l -> (length l < length m)%nat.
Proof. intros N I Ix Nx. assert (L : (length (x :: l) <= length m)%nat); [|cbn in L; lia]. apply NoDup_incl_length; [constructor; auto|]. intros y [<-|Y]; auto. Qed.

(** The loops: [step u v] holds for the steps that are chosen *)
Section Loop.
  Context {A W V : Type} `{EqDec A}.
  Variables (order : list A -> list A) (g : graph A W) (next : graph A unit -> A -> option V -> res (option (A * V))) (back : A -> A -> res V) (step : A -> A -> Prop).
  Hypothesis O : any_order order.
  Hypothesis Wf : wf_graph g.
  Hypothesis Nb : forall x, In x (g_nodes g) -> exists y, has_edge g x y.
  Hypothesis Next : forall result node dir, In node (g_nodes g) -> exists r, next result node dir = Ok r /\
    match r with
    | Some (q, _) => has_edge g node q /\ step node q
    | None => dir <> None
    end.
  Hypothesis Back : forall node nbr, has_edge g node nbr -> exists d, back node nbr = Ok d.

  (** what holds of the state throughout *)
  Record binv (s : bstate A) : Prop := {
    bi_wf : wf_graph (b_result s);
    bi_nodes : incl (g_nodes (b_result s)) (g_nodes g);
    bi_edges : forall u v, has_edge (b_result s) u v -> has_edge g u v /\ (step u v \/ step v u);
    bi_nodup : NoDup (b_evaluated s);
    bi_eval : incl (b_evaluated s) (g_nodes g)
  }.
  Arguments bi_wf {s}. Arguments bi_nodes {s}. Arguments bi_edges {s}. Arguments bi_nodup {s}. Arguments bi_eval {s}.
  Lemma result_le s : binv s -> (length (g_nodes (b_result s)) <= length (g_nodes g))%nat.
  Proof. intros I. apply NoDup_incl_length; [apply (bi_wf I)|apply (bi_nodes I)]. Qed.
  Lemma eval_le s : binv s -> (length (b_evaluated s) <= length (g_nodes g))%nat.
  Proof. intros I. apply NoDup_incl_length; [apply (bi_nodup I)|apply (bi_eval I)]. Qed.
  Lemma add_edge_nodes_eq (r : graph A unit) u v w : In u (g_nodes r) -> g_nodes (add_edge r u v w) = set_add v (g_nodes r).
  Proof. intros I. assert (E : set_add u (g_nodes r) = g_nodes r) by (unfold set_add; rewrite (proj2 (mem_spec _ _) I); auto). unfold add_edge. destruct (adj r u v); cbn; rewrite E; auto. Qed.

  Lemma follow_ok : forall fuel s node dir (on : bool), binv s -> In node (g_nodes (b_result s)) ->
    (2 * (length (g_nodes g) - length (g_nodes (b_result s))) + (if on then 0 else 1) < fuel)%nat ->
    exists s', follow next fuel s node dir on = Ok s' /\ binv s' /\ incl (g_nodes (b_result s)) (g_nodes (b_result s')) /\ incl (b_evaluated s) (b_evaluated s').
  Proof. induction fuel as [|fuel IH]; intros s node dir on I In1 L; [lia|]. cbn [follow]. assert (Ig : In node (g_nodes g)) by (apply (bi_nodes I); auto).
    destruct (Next (b_result s) node dir Ig) as (r & -> & Hr). cbn [bind]. destruct r as [[q u]|].
    - destruct (mem q (g_nodes (b_result s)) && on) eqn:M; [exists s; split; auto; split; auto; split; apply incl_refl|].
      destruct Hr as (Eq & Nq). set (s1 := mk_bstate (add_edge (b_result s) node q tt) (b_evaluated s)).
      assert (En : g_nodes (b_result s1) = set_add q (g_nodes (b_result s))) by (apply add_edge_nodes_eq; auto).
      assert (I1 : binv s1).
      { constructor; cbn [s1 b_result b_evaluated]; try apply I.
        - apply wf_add_edge, I.
        - change (add_edge (b_result s) node q tt) with (b_result s1). rewrite En. intros x X. apply in_set_add in X as [X|X]; [subst; apply (wf_ends Wf Eq)|apply (bi_nodes I); auto].
        - intros a b X. apply add_edge_edges in X as [(-> & ->)|[(-> & ->)|X]]; [auto|split; [apply has_edge_sym; auto|auto]|apply (bi_edges I); auto]. }
      assert (Iq : In q (g_nodes (b_result s1))) by (rewrite En; apply in_set_add; auto).
      pose proof (result_le s1 I1) as Le.
      destruct (IH s1 q (Some u) (mem q (g_nodes (b_result s))) I1 Iq) as (s' & E & I' & R1 & R2).
      + rewrite En, set_add_length in *. destruct (mem q (g_nodes (b_result s))), on; cbn in M; try discriminate; lia.
      + exists s'. split; auto. split; auto. split; auto. intros x X. apply R1. rewrite En. apply in_set_add. auto.
    - destruct dir as [d|]; [|congruence]. eexists. split; [reflexivity|]. split; [|split; [apply incl_refl|cbn; intros x X; apply in_set_add; auto]].
      constructor; cbn [b_result b_evaluated]; try apply I. { apply NoDup_set_add, I. } intros x X. apply in_set_add in X as [X|X]; [subst; auto|apply (bi_eval I); auto]. Qed.
  Lemma find_loop_ok s node dir : binv s -> In node (g_nodes g) ->
    exists s', find_loop g next s node dir = Ok s' /\ binv s' /\ incl (g_nodes (b_result s)) (g_nodes (b_result s')) /\ In node (g_nodes (b_result s')) /\ incl (b_evaluated s) (b_evaluated s').
  Proof. intros I Ig. unfold find_loop. set (s1 := mk_bstate (add_node (b_result s) node) (b_evaluated s)).
    assert (I1 : binv s1).
    { constructor; cbn [s1 b_result b_evaluated]; try apply I.
      - apply wf_add_node, I.
      - cbn. intros x X. apply in_set_add in X as [X|X]; [subst; auto|apply (bi_nodes I); auto]. }
    assert (In1 : In node (g_nodes (b_result s1))) by (cbn; apply in_set_add; auto).
    destruct (follow_ok (2 * length (g_nodes g) + 2) s1 node dir false I1 In1) as (s' & E & I' & R1 & R2); [lia|]. exists s'. split; auto. split; auto. split; [|split; auto].
    intros x X. apply R1. cbn. apply in_set_add. auto. Qed.

  Definition bmeasure (s : bstate A) : nat := (length (g_nodes g) - length (g_nodes (b_result s))) + (length (g_nodes g) - length (b_evaluated s)).

  Lemma candidate_in s x : binv s -> In x (candidate_nodes g s) <-> In x (g_nodes g) /\ forall y, has_edge g x y -> ~ In x (g_nodes (b_result s)) /\ ~ In y (g_nodes (b_result s)).
  Proof. intros I. unfold candidate_nodes. rewrite filter_In, negb_true_iff, mem_false, in_flat_map. split.
    - intros (Ix & N). split; auto. intros y (w & E).
      assert (X : forall e, In e (g_edges g) -> (end1 e = x /\ end2 e = y) \/ (end1 e = y /\ end2 e = x) -> ~ In x (g_nodes (b_result s)) /\ ~ In y (g_nodes (b_result s))).
      { intros e Ie J. destruct (mem (end1 e) (g_nodes (b_result s)) || mem (end2 e) (g_nodes (b_result s))) eqn:M.
        - exfalso. apply N. exists e. split; auto. rewrite M. cbn. intuition.
        - apply orb_false_iff in M as (M1 & M2). apply mem_false in M1. apply mem_false in M2. destruct J as [(<- & <-)|(<- & <-)]; auto. }
      destruct E as [E|E]; [apply (X _ E)|apply (X _ E)]; cbn; auto.
    - intros (Ix & N). split; auto. intros (e & Ie & X). destruct (mem (end1 e) (g_nodes (b_result s)) || mem (end2 e) (g_nodes (b_result s))) eqn:M; [|destruct X].
      apply orb_true_iff in M. rewrite !mem_spec in M. destruct e as [[a b] w]. cbn in *. destruct X as [<-|[<-|[]]]; [destruct (N b)|destruct (N a)]; try (exists w; auto); tauto. Qed.

  Lemma run_turn_ok s : binv s -> is_dominating_set g (g_nodes (b_result s)) = false -> exists s', run_turn order g next back s = Ok s' /\ binv s' /\ (bmeasure s' < bmeasure s)%nat.
  Proof. intros I D. unfold run_turn. destruct (order (new_end_nodes s)) as [|node rest] eqn:En.
    - destruct (order (candidate_nodes g s)) as [|node rest] eqn:Ec.
      + exfalso. assert (Cn : candidate_nodes g s = []) by (apply Permutation_nil; rewrite <- Ec; apply O). rewrite <- not_true_iff_false in D. apply D. apply is_dominating_spec; [apply (bi_nodes I)|]. intros x Ix.
        destruct (in_dec eq_dec x (g_nodes (b_result s))) as [|Nx]; auto. right.
        destruct (existsb (fun y => mem y (g_nodes (b_result s))) (neighbors g x)) eqn:Ex.
        * apply existsb_exists in Ex as (y & Iy & M). apply mem_spec in M. exists y. split; auto. apply in_neighbors; auto.
        * exfalso. assert (X : In x (candidate_nodes g s)); [|rewrite Cn in X; destruct X]. apply candidate_in; auto. split; auto. intros y Ey. split; auto. intros Iy.
          assert (Y : existsb (fun y => mem y (g_nodes (b_result s))) (neighbors g x) = true); [|congruence]. apply existsb_exists. exists y. split; [apply in_neighbors; auto|apply mem_spec; auto].
      + assert (Ic : In node (candidate_nodes g s)) by (apply (Permutation_in _ (O _)); rewrite Ec; left; auto). apply candidate_in in Ic as (Ig & Nc); auto.
        destruct (Nb node Ig) as (y & Ey). destruct (Nc y Ey) as (Nn & _). destruct (find_loop_ok s node None I Ig) as (s' & E & I' & R1 & In' & R2). exists s'. split; auto. split; auto.
        unfold bmeasure. pose proof (incl_length_lt _ _ node (wg_nodes (bi_wf I)) R1 In' Nn). pose proof (NoDup_incl_length (bi_nodup I) R2). pose proof (result_le s' I'). pose proof (eval_le s' I'). lia.
    - assert (Ie : In node (new_end_nodes s)) by (apply (Permutation_in _ (O _)); rewrite En; left; auto). unfold new_end_nodes in Ie. apply filter_In in Ie as (Ir & Ie). apply andb_true_iff in Ie as (Dg & Ne). apply Nat.eqb_eq in Dg. apply negb_true_iff, mem_false in Ne.
      pose proof (degree_neighbors (b_result s) node) as Nbr. destruct (neighbors (b_result s) node) as [|nbr l] eqn:El; [exfalso; apply Nbr; [lia|auto]|].
      assert (Er : has_edge (b_result s) node nbr) by (apply in_neighbors; rewrite El; left; auto). destruct (bi_edges I _ _ Er) as (Eg & _).
      destruct (Back node nbr Eg) as (d & ->). cbn [bind]. assert (Ig : In node (g_nodes g)) by (apply (bi_nodes I); auto).
      destruct (find_loop_ok s node (Some d) I Ig) as (s' & -> & I' & R1 & In' & R2). cbn [bind].
      assert (I2 : binv (mk_bstate (b_result s') (set_add node (b_evaluated s')))).
      { constructor; cbn [b_result b_evaluated]; try apply I'. { apply NoDup_set_add, I'. } intros x X. apply in_set_add in X as [X|X]; [subst; auto|apply (bi_eval I'); auto]. }
      eexists. split; [reflexivity|]. split; auto. unfold bmeasure. pose proof (eval_le _ I2) as L2. pose proof (result_le _ I2) as L3. cbn [b_result b_evaluated] in *.
      assert (Lt : (length (b_evaluated s) < length (set_add node (b_evaluated s')))%nat).
      { apply (incl_length_lt _ _ node); auto; [apply (bi_nodup I)| |apply in_set_add; auto]. intros x X. apply in_set_add. auto. }
      pose proof (NoDup_incl_length (wg_nodes (bi_wf I)) R1). lia. Qed.

  Lemma run_loop_ok : forall fuel s, binv s -> (bmeasure s < fuel)%nat -> exists s', run_loop order g next back fuel s = Ok s' /\ binv s' /\ dominates g (g_nodes (b_result s')).
  Proof. induction fuel as [|fuel IH]; intros s I L; [lia|]. cbn [run_loop]. destruct (is_dominating_set g (g_nodes (b_result s))) eqn:D.
    - exists s. split; auto. split; auto. apply is_dominating_spec; auto. apply (bi_nodes I).
    - destruct (run_turn_ok s I D) as (s' & -> & I' & L'). cbn [bind]. apply IH; auto. lia. Qed.

  Lemma ballistic_with_ok : exists r, evaluate_line_ballistic_with order g next back = Ok r /\ wf_graph r /\ incl (g_nodes r) (g_nodes g) /\
    (forall u v, has_edge r u v -> has_edge g u v /\ (step u v \/ step v u)) /\ dominates g (g_nodes r).
  Proof. unfold evaluate_line_ballistic_with. destruct (run_loop_ok (2 * length (g_nodes g) + 1) (mk_bstate empty_graph [])) as (s & -> & I & D).
    - constructor; cbn [b_result b_evaluated]; [apply wf_empty|intros x []|intros u v (w & [[]|[]])|constructor|intros x []].
    - unfold bmeasure. cbn. lia.
    - exists (b_result s). cbn [bind]. split; auto. split; [apply I|]. split; [apply I|]. split; auto. apply (bi_edges I). Qed.
End Loop.

Section Facts.
  Variables (order : list point -> list point) (cs : coordsys) (fs : R) (g : graph point R).
  Hypothesis O : any_order order.
  Hypothesis B : wf_box cs.
  Hypothesis Wf : wf_graph g.
  Hypothesis P : Forall (is_pos cs) (g_nodes g).
  (** every node has a neighbour at non-zero distance *)
  Definition spread : Prop := forall x, In x (g_nodes g) -> exists y, has_edge g x y /\ dist_sq cs x y <> 0%Qc.
  Hypothesis Sp : spread.

  Lemma argmax_in {A} (f : A -> R) l a : argmax f l = Some a -> In a l.
  Proof. revert a. induction l as [|b l IH]; cbn; [discriminate|]. intros a. destruct (argmax f l) as [c|]; [|intros [= <-]; auto]. destruct (rgt (f c) (f b)); intros [= <-]; auto. Qed.
  Lemma argmax_none {A} (f : A -> R) l : argmax f l = None -> l = [].
  Proof. destruct l as [|b l]; cbn; auto. destruct (argmax f l) as [c|]; [destruct (rgt (f c) (f b)); discriminate|discriminate]. Qed.

  Lemma delta_ok x y : has_edge g x y -> exists v, connecting_vector cs x y = Ok v /\ dot v v = dist_sq cs x y.
  Proof. intros E. destruct (wf_ends Wf E) as (Ix & Iy). rewrite Forall_forall in P. destruct (connecting_vector_spec cs x y B (P x Ix) (P y Iy)) as (v & Ev & _ & _ & L & _). exists v. rewrite dot_len_sq. auto. Qed.
  Lemma deltas_ok x l : (forall y, In y l -> has_edge g x y) -> exists vs, sequence (map (connecting_vector cs x) l) = Ok vs /\ Forall2 (fun y v => dot v v = dist_sq cs x y) l vs.
  Proof. induction l as [|y l IH]; cbn; intros E; [exists []; auto|]. destruct (delta_ok x y (E y (or_introl eq_refl))) as (v & -> & D). destruct IH as (vs & -> & F); [intros; apply E; auto|]. cbn. eauto. Qed.
  Lemma directions_in x l vs q u : Forall2 (fun y v => dot v v = dist_sq cs x y) l vs -> In (q, u) (directions l vs) -> In q l /\ dist_sq cs x q <> 0%Qc.
  Proof. induction 1 as [|y v l vs D F IH]; cbn; [intros []|]. rewrite D. destruct (ltb 0 (dist_sq cs x y)) eqn:L; cbn.
    - intros [[= <- <-]|I]; [|apply IH in I; tauto]. split; auto. apply ltb_spec in L. intros E. rewrite E in L. exact (Qclt_not_eq _ _ L eq_refl).
    - intros I. apply IH in I. tauto. Qed.
  Lemma directions_some x l vs q : Forall2 (fun y v => dot v v = dist_sq cs x y) l vs -> In q l -> dist_sq cs x q <> 0%Qc -> directions l vs <> [].
  Proof. intros F I N. induction F as [|y v l vs D F IH]; [destruct I|]. cbn. rewrite D. destruct (ltb 0 (dist_sq cs x y)) eqn:L; [discriminate|]. destruct I as [<-|I]; auto.
    exfalso. assert (X : Base.leb (dist_sq cs x y) 0%Qc = true) by (unfold Base.leb; rewrite L; auto). apply leb_spec in X. apply N. apply Qcle_antisym; auto. apply dist_sq_nonneg. Qed.

  (** one step: along an edge of the cluster of non-zero length; without a direction
      there is one *)
  Lemma next_ok result node dir : In node (g_nodes g) -> exists r, get_next_pos cs fs g result node dir = Ok r /\
    match r with
    | Some (q, _) => has_edge g node q /\ dist_sq cs node q <> 0%Qc
    | None => dir <> None
    end.
  Proof. intros I. destruct (Sp node I) as (y & Ey & Ny). unfold get_next_pos. pose proof (proj2 (in_neighbors g node y) Ey) as Iy.
    assert (En : forall q, In q (neighbors g node) -> has_edge g node q) by (intros q Iq; apply in_neighbors; auto). destruct (neighbors g node) as [|q0 l0]; [destruct Iy|]. set (l := q0 :: l0) in *.
    destruct (deltas_ok node l En) as (vs & -> & F). cbn [bind]. pose proof (directions_some node l vs y F Iy Ny) as Nd. pose proof (fun q u => directions_in node l vs q u F) as Di.
    destruct (directions l vs) as [|d0 ds]; [congruence|]. set (us := d0 :: ds) in *.
    set (cands := candidates dir us). assert (Ci : forall q u a, In (q, u, a) cands -> has_edge g node q /\ dist_sq cs node q <> 0%Qc).
    { intros q u a Ic. unfold cands, candidates in Ic. apply filter_In in Ic as (Ic & _). apply in_map_iff in Ic as (qu & [= Eq _] & Ic). subst qu. apply Di in Ic as (Iq & Nq). auto. }
    destruct (argmax (weight fs g result node cands) cands) as [[[q u] a]|] eqn:Am.
    - exists (Some (q, u)). split; auto. apply argmax_in in Am. eapply Ci; eauto.
    - exists None. split; auto. apply argmax_none in Am. intros ->. unfold cands, candidates, us in Am. cbn [map filter snd] in Am.
      assert (X : rgt 1 0 = true) by (unfold rgt; destruct (Rlt_dec 0 1); auto; lra). rewrite X in Am. discriminate. Qed.

  Lemma dist_nz_sym x y : has_edge g x y -> dist_sq cs x y <> 0%Qc -> dist_sq cs y x <> 0%Qc.
  Proof. intros E N. destruct (wf_ends Wf E) as (Ix & Iy). rewrite Forall_forall in P. rewrite dist_sq_sym; auto. Qed.
  Lemma ballistic_ok : exists r, evaluate_line_ballistic order cs fs g = Ok r /\ wf_graph r /\ incl (g_nodes r) (g_nodes g) /\
    (forall u v, has_edge r u v -> has_edge g u v /\ dist_sq cs u v <> 0%Qc) /\ dominates g (g_nodes r).
  Proof. destruct (ballistic_with_ok order g (get_next_pos cs fs g) (away cs) (fun u v => dist_sq cs u v <> 0%Qc)) as (r & E & W & I & Ed & D); auto.
    - intros x Ix. destruct (Sp x Ix) as (y & Ey & _). exists y; auto.
    - apply next_ok.
    - intros node nbr Eg. unfold away. destruct (delta_ok node nbr Eg) as (v & -> & _). cbn [bind]. eauto.
    - exists r. split; auto. split; auto. split; auto. split; auto. intros u v Huv. destruct (Ed u v Huv) as (Eg & [X|X]); split; auto. apply dist_nz_sym; auto. apply has_edge_sym; auto. Qed.
End Facts.
