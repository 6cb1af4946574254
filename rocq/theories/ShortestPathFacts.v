(** Proofs about the shortest-path method. *)
From Verif Require Import Base BaseFacts CoordSys Graph SpecGraph GraphFacts GraphComponents Paths SpecPath SpecCluster PathFacts BallisticFacts ShortestPath.
From Coq Require Import Reals Psatz.
From Coq Require Import Lra.
Open Scope list_scope.

Lemma filter_length_le {A} (f : A -> bool) l : (length (filter f l) <= length l)%nat.
Proof. induction l as [|x l IH]; cbn; [auto|]. destruct (f x); cbn; lia. Qed.
Lemma filter_length_lt {A} (f : A -> bool) l x : In x l -> f x = false -> (length (filter f l) < length l)%nat.
Proof. induction l as [|y l IH]; intros I F; [destruct I|]. cbn. destruct I as [->|I]; [rewrite F; pose proof (filter_length_le f l); lia|]. specialize (IH I F). destruct (f y); cbn; lia. Qed.
Lemma last_in {A} (q : list A) : forall a d, In (last (a :: q) d) (a :: q).
Proof. induction q as [|x q IH]; intros a d; [left; auto|]. right. rewrite last_cons. apply IH. Qed.

(** the weights satisfy [nn] ("non-negative") *)
Definition all_weights {A W} (nn : W -> Prop) (h : graph A W) : Prop := forall e, In e (g_edges h) -> nn (snd e).
(** [h'] differs from [h] in the weights only, which stay non-negative *)
Definition keeps {A W} `{EqDec A} (nn : W -> Prop) (h h' : graph A W) : Prop :=
  g_nodes h' = g_nodes h /\ (forall u v, has_edge h' u v <-> has_edge h u v) /\ (wf_graph h -> wf_graph h') /\ (all_weights nn h -> all_weights nn h').
Section Keeps.
  Context {A W : Type} `{EqDec A}.
  Variables (nn : W -> Prop) (ops : weight_ops W).
  Lemma keeps_refl (h : graph A W) : keeps nn h h. Proof. split; auto. split; [reflexivity|auto]. Qed.
  Lemma keeps_trans (a b c : graph A W) : keeps nn a b -> keeps nn b c -> keeps nn a c.
  Proof. intros (N & E & W1 & P) (N' & E' & W' & P'). split; [congruence|]. split; [|split; auto]. intros u v. rewrite E', E. reflexivity. Qed.
  Lemma keeps_update f u v (h : graph A W) : (forall w, nn w -> nn (f w)) -> keeps nn h (update_attr f u v h).
  Proof. intros F. split; auto. split; [intros; apply update_attr_edges|]. split; [apply wf_update_attr|]. intros P e I. cbn in I. apply in_map_iff in I as (e0 & E & I). apply P in I. destruct (joins u v e0); subst e; cbn; auto. Qed.
  Lemma keeps_fold {B} (step : graph A W -> B -> graph A W) l : forall h, (forall h b, In b l -> keeps nn h (step h b)) -> keeps nn h (fold_left step l h).
  Proof. induction l as [|b l IH]; intros h S; [apply keeps_refl|]. cbn. apply keeps_trans with (step h b); [apply S; left; auto|]. apply IH. intros; apply S; right; auto. Qed.
  Lemma keeps_neighbour_weights x m (h : graph A W) : (forall w, nn w -> nn (m w)) -> keeps nn h (update_neighbour_weights x m h).
  Proof. intros M. apply keeps_fold. intros. apply keeps_update; auto. Qed.
  Lemma keeps_zero_path p (h : graph A W) : nn (wo_zero ops) -> keeps nn h (zero_path ops p h).
  Proof. intros Z. apply keeps_fold. intros. apply keeps_update. auto. Qed.
End Keeps.

(** what is needed of the function for shortest paths: a path if there is one *)
Definition finds_paths {A W} `{EqDec A} (nn : W -> Prop) (spath : graph A W -> A -> A -> option (list A)) : Prop :=
  forall g u v, wf_graph g -> all_weights nn g -> In u (g_nodes g) -> In v (g_nodes g) ->
  match spath g u v with
  | None => ~ linked (has_edge g) u v
  | Some p => is_path g u v p
  end.
(** ... and of the calculations with weights *)
Record good_ops {W} (nn : W -> Prop) (ops : weight_ops W) : Prop := {
  go_half : forall w, nn w -> nn (wo_half ops w);
  go_tenth : forall w, nn w -> nn (wo_tenth ops w);
  go_ten : forall w, nn w -> nn (wo_ten ops w);
  go_zero : nn (wo_zero ops)
}.

Section SP.
  Context {A W : Type} `{EqDec A}.
  Variables (nn : W -> Prop) (order : list A -> list A) (spath : graph A W -> A -> A -> option (list A)) (ops : weight_ops W) (g : graph A W).
  Hypothesis Ord : any_order order.
  Hypothesis Sp : finds_paths nn spath.
  Hypothesis Go : good_ops nn ops.
  Hypothesis Wf : wf_graph g.
  Hypothesis Cn : connected g.
  Set Default Proof Using "All".

  (** the result so far *)
  Definition rinv (r : graph A unit) : Prop := wf_graph r /\ part_of r g /\ connected r.

  Lemma connected_add_edge (r : graph A unit) u v : connected r -> In u (g_nodes r) -> connected (add_edge r u v tt).
  Proof. intros C Iu.
    assert (Sym : forall a b, has_edge (add_edge r u v tt) a b -> has_edge (add_edge r u v tt) b a) by (intros; apply has_edge_sym; auto).
    assert (To : forall x, In x (g_nodes (add_edge r u v tt)) -> linked (has_edge (add_edge r u v tt)) u x).
    { intros x Ix. apply add_edge_nodes in Ix as [->|[->|Ix]].
      - apply linked_refl.
      - apply linked_one. apply add_edge_edges. auto.
      - apply (@linked_mono _ (has_edge r)); [|apply C; auto]. intros a b E. apply add_edge_edges. auto. }
    intros a b Ia Ib. apply linked_trans with u; [apply linked_sym|]; auto. Qed.

  Lemma add_path_ok q : forall u r, rinv r -> In u (g_nodes r) -> follows (has_edge g) u q ->
    rinv (add_path (u :: q) r) /\ incl (g_nodes r) (g_nodes (add_path (u :: q) r)) /\ incl (u :: q) (g_nodes (add_path (u :: q) r)).
  Proof. induction q as [|x q IH]; intros u r Ri Iu F.
    - split; auto. split; [apply incl_refl|]. intros z [<-|[]]; auto.
    - destruct F as (E & F). unfold add_path. cbn [path_edges fold_left fst snd]. fold (add_path (x :: q) (add_edge r u x tt)).
      destruct Ri as (Wr & (Nr & Er) & Cr). destruct (wf_ends Wf E) as (Igu & Igx).
      destruct (IH x (add_edge r u x tt)) as (R' & I1 & I2); auto.
      + split; [apply wf_add_edge; auto|]. split; [|apply connected_add_edge; auto]. split.
        * intros z Iz. apply add_edge_nodes in Iz as [->|[->|Iz]]; auto.
        * intros a b Hab. apply add_edge_edges in Hab as [(-> & ->)|[(-> & ->)|Hab]]; auto. apply has_edge_sym; auto.
      + apply add_edge_nodes; auto.
      + split; auto. split.
        * intros z Iz. apply I1. apply add_edge_nodes; auto.
        * intros z [<-|Iz]; [apply I1, add_edge_nodes; auto|apply I2; auto]. Qed.

  (** everything that is not a candidate any more is covered by the line and [extra] *)
  Definition cov (s : pstate A W) (extra : list A) : Prop :=
    forall x, In x (g_nodes g) -> In x (p_cand s) \/ exists y, (In y (g_nodes (p_result s)) \/ In y extra) /\ (x = y \/ has_edge g x y).
  Definition work_ok (h : graph A W) : Prop := g_nodes h = g_nodes g /\ (forall u v, has_edge h u v <-> has_edge g u v) /\ wf_graph h /\ all_weights nn h.
  Lemma work_keeps h h' : work_ok h -> keeps nn h h' -> work_ok h'.
  Proof. intros (N & E & W1 & P) (N' & E' & W' & P'). split; [congruence|]. split; auto. intros u v. rewrite E'. auto. Qed.
  Definition pinv (s : pstate A W) : Prop := rinv (p_result s) /\ work_ok (p_work s) /\ incl (p_cand s) (g_nodes g).
  Definition tmp_ok (tmp : graph A W) : Prop := wf_graph tmp /\ all_weights nn tmp /\ forall u v, has_edge tmp u v -> has_edge g u v.

  Section Paths.
    Variables (start end_ : A) (sen : list A).
    Hypothesis Sen : forall x, In x sen <-> (x = start \/ has_edge g start x) \/ (x = end_ \/ has_edge g end_ x).

    Lemma near_walk q : forall u, follows (has_edge g) u q -> (u = start \/ has_edge g start u) -> last (u :: q) u = end_ -> incl q sen ->
      exists p, follows (has_edge g) start p /\ last (start :: p) start = end_ /\ (length p <= 3)%nat.
    Proof. induction q as [|x q IH]; intros u F Nu L I.
      - cbn in L. subst u. destruct Nu as [->|E]; [exists []|exists [end_]]; (split; [cbn; auto|split; [reflexivity|cbn; lia]]).
      - destruct F as (E & F). assert (Ix : In x sen) by (apply I; left; auto). apply Sen in Ix as [Ix|Ix].
        + apply (IH x); auto; [|intros z Iz; apply I; right; auto]. rewrite last_cons in L. rewrite (last_default x q x u). auto.
        + destruct Nu as [->|Nu], Ix as [->|Ix].
          * exists [end_]; split; [cbn; auto|split; [reflexivity|cbn; lia]].
          * exists [x; end_]; split; [cbn; auto using has_edge_sym|split; [reflexivity|cbn; lia]].
          * exists [u; end_]; split; [cbn; auto|split; [reflexivity|cbn; lia]].
          * exists [u; x; end_]; split; [cbn; auto using has_edge_sym|split; [reflexivity|cbn; lia]]. Qed.

    Lemma find_paths_ok left : forall num (single : bool) tmp s, tmp_ok tmp -> In start (g_nodes tmp) -> In end_ (g_nodes tmp) ->
      (single = false -> forall p, follows (has_edge g) start p -> last (start :: p) start = end_ -> (3 < length p)%nat) ->
      pinv s -> cov s [end_] -> In start (g_nodes (p_result s)) ->
      exists s', find_paths spath ops left num single start end_ sen tmp s = Ok s' /\ pinv s' /\ cov s' [end_] /\
        incl (g_nodes (p_result s)) (g_nodes (p_result s')) /\ (length (p_cand s') <= length (p_cand s))%nat /\
        (In end_ (g_nodes (p_result s)) \/ (num = O /\ (0 < left)%nat /\ linked (has_edge tmp) start end_) -> In end_ (g_nodes (p_result s'))).
    Proof. induction left as [|left IH]; intros num single tmp s (Wt & Pt & Et) Is Ie Far P C Ir.
      - exists s. cbn. split; [reflexivity|split; [exact P|split; [exact C|split; [apply incl_refl|split; [auto|]]]]]. intros [X|(_ & X & _)]; [auto|lia].
      - cbn [find_paths]. destruct (single && (num =? 1)%nat) eqn:E1.
        { exists s. split; [reflexivity|split; [exact P|split; [exact C|split; [apply incl_refl|split; [auto|]]]]]. apply andb_true_iff in E1 as (_ & E1). apply Nat.eqb_eq in E1. intros [X|(X & _)]; [auto|lia]. }
        pose proof (Sp tmp start end_ Wt Pt Is Ie) as Spx. destruct (spath tmp start end_) as [path|].
        2:{ exists s. split; [reflexivity|split; [exact P|split; [exact C|split; [apply incl_refl|split; [auto|]]]]]. intros [X|(_ & _ & X)]; [auto|contradiction]. }
        destruct Spx as (q & -> & F & L).
        assert (Fg : follows (has_edge g) start q). { clear - F Et. revert start F. induction q as [|x q IHq]; intros u F; cbn; auto. destruct F. split; auto. }
        set (nnb := flat_map (closed_nbhd tmp) (start :: q)). set (rem := filter (fun x => negb (mem x sen)) nnb).
        assert (Rem : rem = [] -> single = true).
        { intros R0. destruct single; auto. exfalso. specialize (Far eq_refl). destruct (existsb (fun x => negb (mem x sen)) q) eqn:Ex.
          - apply existsb_exists in Ex as (x & Ix & Nx). assert (X : In x rem); [|rewrite R0 in X; destruct X]. apply filter_In. split; auto. unfold nnb. apply in_flat_map. exists x. split; [right; auto|left; auto].
          - destruct (near_walk q start Fg (or_introl eq_refl) L) as (p & Fp & Lp & Le). { intros x Ix. destruct (mem x sen) eqn:Mx; [apply mem_spec; auto|]. exfalso. assert (existsb (fun x => negb (mem x sen)) q = true); [|congruence]. apply existsb_exists. exists x. rewrite Mx. auto. }
            specialize (Far p Fp Lp). lia. }
        set (s1 := mk_pstate (zero_path ops (start :: q) (p_work s)) (add_path (start :: q) (p_result s)) (filter (fun x => negb (mem x nnb)) (p_cand s)) (p_high s) (p_one s)).
        set (tmp1 := remove_nodes (zero_path ops (start :: q) tmp) rem).
        assert (Goes : (match rem, single with [], false => Err AssertionError | _, _ => find_paths spath ops left (Datatypes.S num) single start end_ sen tmp1 s1 end) = find_paths spath ops left (Datatypes.S num) single start end_ sen tmp1 s1).
        { destruct rem; auto. rewrite Rem; auto. }
        rewrite Goes. clear Goes. destruct P as (Ri & Wk & Ic). destruct (add_path_ok q start (p_result s) Ri Ir Fg) as (Ri' & I1 & I2).
        destruct (keeps_zero_path nn ops (start :: q) tmp (go_zero _ _ Go)) as (Kn & Ke & Kw & Kp).
        assert (Keep : forall x, In x sen -> In x (g_nodes tmp) -> In x (g_nodes tmp1)).
        { intros x Ix It. unfold tmp1. apply remove_nodes_nodes. rewrite Kn. split; auto. intros X. apply filter_In in X as (_ & X). apply negb_true_iff, mem_false in X. auto. }
        destruct (IH (Datatypes.S num) single tmp1 s1) as (s' & E & P' & C' & I3 & Ln & Le); auto.
        + split; [apply wf_remove_nodes; auto|]. split; [|intros u v Huv; apply remove_nodes_edges in Huv as (Huv & _); apply Et, Ke; auto]. intros e I. unfold tmp1, remove_nodes in I. cbn in I. apply filter_In in I as (I & _). apply (Kp Pt); auto.
        + apply Keep; auto. apply Sen. auto.
        + apply Keep; auto. apply Sen. auto.
        + split; auto. split; [apply (work_keeps (p_work s)); auto; apply keeps_zero_path, Go|]. intros x Ix. cbn in Ix. apply filter_In in Ix as (Ix & _). auto.
        + intros x Ix. destruct (C x Ix) as [Cx|(y & [Iy|Iy] & D)].
          * cbn [p_cand p_result s1]. destruct (mem x nnb) eqn:M; [|left; apply filter_In; rewrite M; auto]. right. apply mem_spec, in_flat_map in M as (y & Iy & N). exists y. split; [left; apply I2; auto|]. destruct N as [->|N]; auto. right. apply has_edge_sym, Et, in_neighbors; auto.
          * right. exists y. split; [left; apply I1|]; auto.
          * right. exists y. auto.
        + exists s'. split; auto. split; auto. split; auto. split; [intros x Ix; apply I3, I1; auto|]. split.
          { etransitivity; [apply Ln|]. cbn. apply filter_length_le. }
          intros _. apply I3, I2. rewrite <- L. apply last_in. Qed.
  End Paths.

  Lemma update_high_ok s : work_ok (p_work s) -> work_ok (p_work (update_high_degree_nodes ops s)).
  Proof. intros Wk. apply (work_keeps (p_work s)); auto. cbn. apply keeps_fold. intros. apply keeps_neighbour_weights, Go. Qed.
  Lemma update_one_ok s : work_ok (p_work s) -> work_ok (p_work (update_degree_one_nodes order ops s)).
  Proof. intros Wk. apply (work_keeps (p_work s)); auto. cbn. eapply keeps_trans; [|apply keeps_fold]; [apply keeps_fold|]; intros; apply keeps_neighbour_weights, Go. Qed.

  Lemma connect_one_ok end_ s start : pinv s -> cov s [end_] -> In start (g_nodes (p_result s)) -> In end_ (g_nodes g) ->
    exists s', connect_one order spath ops end_ s start = Ok s' /\ pinv s' /\ cov s' [end_] /\ incl (g_nodes (p_result s)) (g_nodes (p_result s')) /\
      (length (p_cand s') <= length (p_cand s))%nat /\ In end_ (g_nodes (p_result s')).
  Proof. intros (Ri & Wk & Ic) C Ir Ie. unfold connect_one. set (s1 := update_degree_one_nodes order ops (update_high_degree_nodes ops s)).
    assert (W1 : work_ok (p_work s1)) by (apply update_one_ok, update_high_ok; auto). pose proof W1 as (Nn & Ee & Ww & Pp).
    assert (Ig : In start (g_nodes g)) by (apply Ri; auto).
    assert (Ln : linked (has_edge (p_work s1)) start end_). { apply (@linked_mono _ (has_edge g)); [intros; apply Ee; auto|]. apply Cn; auto. }
    destruct (hops_linked (p_work s1) start end_ Ww) as (n & Hn); auto; [rewrite Nn; auto|]. rewrite Hn. pose proof (proj2 (hops_some _ _ _ _ Hn)) as Min.
    destruct (find_paths_ok start end_ (closed_nbhd (p_work s1) start ++ closed_nbhd (p_work s1) end_)) with (left := max_num_paths) (num := O) (single := (n <=? 4)%nat) (tmp := p_work s1) (s := s1) as (s' & E & P' & C' & I3 & Le & In'); auto.
    - intros x. rewrite in_app_iff. unfold closed_nbhd. cbn [In]. rewrite !in_neighbors, !Ee. intuition.
    - split; auto. split; auto. intros; apply Ee; auto.
    - rewrite Nn; auto.
    - rewrite Nn; auto.
    - intros Es p Fp Lp. apply Nat.leb_gt in Es. assert (n <= length p)%nat; [|lia]. apply Min; auto. clear - Fp Ee. revert start Fp. induction p as [|x p IHp]; intros u F; cbn; auto. destruct F. split; auto. apply Ee; auto.
    - split; auto.
    - exists s'. split; auto. split; auto. split; auto. split; auto. split; auto. apply In'. right. split; auto. split; auto. unfold max_num_paths. lia. Qed.

  Lemma connect_all_ok end_ starts : forall s, pinv s -> cov s [end_] -> incl starts (g_nodes (p_result s)) -> In end_ (g_nodes g) ->
    exists s', connect_all order spath ops end_ s starts = Ok s' /\ pinv s' /\ cov s' [end_] /\ incl (g_nodes (p_result s)) (g_nodes (p_result s')) /\
      (length (p_cand s') <= length (p_cand s))%nat /\ (starts <> [] \/ In end_ (g_nodes (p_result s)) -> In end_ (g_nodes (p_result s'))).
  Proof. induction starts as [|st rest IH]; intros s P C I Ie.
    - exists s. cbn. split; [reflexivity|split; [exact P|split; [exact C|split; [apply incl_refl|split; [auto|]]]]]. intros [X|X]; congruence.
    - cbn [connect_all]. destruct (connect_one_ok end_ s st P C) as (s1 & E & P1 & C1 & I1 & L1 & In1); auto; [apply I; left; auto|]. rewrite E. cbn [bind].
      destruct (IH s1 P1 C1) as (s' & E' & P' & C' & I' & L' & In'); auto; [intros x Ix; apply I1, I; right; auto|]. exists s'. split; auto. split; auto. split; auto. split; [intros x Ix; apply I', I1; auto|]. split; [lia|]. auto. Qed.

  Lemma path_loop_ok fuel : forall starts s, (length (p_cand s) <= fuel)%nat -> pinv s -> cov s [] -> starts <> [] -> incl starts (g_nodes (p_result s)) ->
    exists r, path_loop order spath ops fuel starts s = Ok r /\ rinv r /\ dominates g (g_nodes r) /\ incl starts (g_nodes r).
  Proof. induction fuel as [|fuel IH]; intros starts s L P C Ne I; cbn [path_loop].
    - destruct (p_cand s) as [|] eqn:Ec; [|cbn in L; lia]. assert (E0 : order [] = []) by (apply Permutation_nil, Permutation_sym, Ord). rewrite E0. exists (p_result s). split; auto. split; [apply P|]. split; auto.
      intros x Ix. destruct (C x Ix) as [X|(y & [Iy|[]] & [->|E])]; auto; [rewrite Ec in X; destruct X|]. right. exists y. auto.
    - pose proof (Ord (p_cand s)) as Op. destruct (order (p_cand s)) as [|end_ rest].
      + apply Permutation_nil in Op. exists (p_result s). split; auto. split; [apply P|]. split; auto.
        intros x Ix. destruct (C x Ix) as [X|(y & [Iy|[]] & [->|E])]; auto; [rewrite Op in X; destruct X|]. right. exists y. auto.
      + assert (Ie : In end_ (p_cand s)) by (apply (Permutation_in _ Op); left; auto). clear Op. destruct P as (Ri & Wk & Ic). pose proof Wk as (Nn & Ee & _ & _).
        set (cand := filter (fun x => negb (mem x (closed_nbhd (p_work s) end_))) (p_cand s)). set (s1 := mk_pstate (p_work s) (p_result s) cand (p_high s) (p_one s)).
        assert (Lc : (length cand < length (p_cand s))%nat). { apply (filter_length_lt _ _ end_); auto. apply negb_false_iff, mem_spec. left; auto. }
        destruct (connect_all_ok end_ (order starts) s1) as (s' & E & P' & C' & I' & L' & In'); auto.
        * split; auto. split; auto. intros x Ix. apply filter_In in Ix as (Ix & _). auto.
        * intros x Ix. destruct (C x Ix) as [X|(y & [Iy|[]] & D)]; [|right; exists y; auto]. destruct (mem x (closed_nbhd (p_work s) end_)) eqn:M; [|left; apply filter_In; rewrite M; auto].
          right. exists end_. split; [right; left; auto|]. apply mem_spec in M as [->|M]; auto. right. apply has_edge_sym, Ee, in_neighbors; auto.
        * intros x Ix. apply I. apply (Permutation_in _ (Ord starts)); auto.
        * rewrite E. cbn [bind]. assert (Iend : In end_ (g_nodes (p_result s'))). { apply In'. left. intros X. apply Ne. apply Permutation_nil. rewrite <- X. apply Ord. }
          assert (Sub : incl (set_add end_ starts) (g_nodes (p_result s'))). { intros x Ix. apply in_set_add in Ix as [->|Ix]; auto. }
          destruct (IH (set_add end_ starts) s') as (r & Er & Rr & Dr & Ir); auto.
          -- cbn in L'. lia.
          -- intros x Ix. destruct (C' x Ix) as [X|(y & [Iy|[<-|[]]] & D)]; auto; right; eauto.
          -- intros X. unfold set_add in X. destruct (mem end_ starts); [auto|]. destruct starts; discriminate.
          -- exists r. split; auto. split; auto. split; auto. intros x Ix. apply Ir. apply in_set_add; auto. Qed.

  Lemma shortest_path_with_ok : (forall e, In e (g_edges g) -> nn (wo_init ops (snd e))) -> g_nodes g <> [] ->
    exists r, evaluate_line_shortest_path_with order spath ops g = Ok r /\ rinv r /\ dominates g (g_nodes r).
  Proof. intros Dp Ne. unfold evaluate_line_shortest_path_with. cbn [g_nodes init_weights map_attr]. pose proof (Ord (g_nodes g)) as Op. destruct (order (g_nodes g)) as [|first rest]; [apply Permutation_nil in Op; contradiction|].
    assert (If : In first (g_nodes g)) by (apply (Permutation_in _ Op); left; auto). clear Op.
    assert (Ee : forall u v, has_edge (init_weights ops g) u v <-> has_edge g u v) by (intros; apply map_attr_edges).
    set (cand := filter _ _). edestruct (path_loop_ok (length (g_nodes g)) [first] (mk_pstate (init_weights ops g) (add_node empty_graph first) cand [] [])) as (r & E & Rr & Dr & _); [| | | | |exists r; split; [exact E|auto]].
    - unfold cand. cbn [p_cand]. apply filter_length_le.
    - split; [|split].
      + split; [apply wf_add_node, wf_empty|]. split.
        * split; [intros x [<-|[]]; auto|]. intros u v (w & [[]|[]]).
        * intros u v [<-|[]] [<-|[]]. apply linked_refl.
      + split; auto. split; auto. split; [apply wf_map_attr; auto|]. intros e I. cbn in I. apply in_map_iff in I as (e0 & <- & I). cbn [snd]. apply Dp in I. exact I.
      + intros x Ix. cbn in Ix. apply filter_In in Ix as (Ix & _). auto.
    - intros x Ix. cbn [p_cand p_result]. destruct (mem x (closed_nbhd (init_weights ops g) first)) eqn:M; [|left; apply filter_In; rewrite M; auto].
      right. exists first. split; [left; left; auto|]. apply mem_spec in M as [->|M]; auto. right. apply has_edge_sym, Ee, in_neighbors; auto.
    - discriminate.
    - intros x Ix. exact Ix. Qed.
End SP.

(** exact reals *)
Lemma good_spath_finds (spath : graph point R -> point -> point -> option (list point)) : good_spath spath -> finds_paths (fun w => (0 <= w)%R) spath.
Proof. intros Sp g u v W N Iu Iv. specialize (Sp g u v W N Iu Iv). destruct (spath g u v); [apply Sp|exact Sp]. Qed.
Lemma real_ops_good fs : good_ops (fun w => (0 <= w)%R) (real_ops fs).
Proof. split; cbn; intros; lra. Qed.
Lemma shortest_path_ok (order : list point -> list point) spath fs (g : graph point R) : any_order order -> good_spath spath -> wf_graph g -> connected g ->
  (0 < fs)%R -> (forall e, In e (g_edges g) -> (0 <= snd e)%R) -> g_nodes g <> [] ->
  exists r, evaluate_line_shortest_path order spath fs g = Ok r /\ rinv g r /\ dominates g (g_nodes r).
Proof. intros Ord Sp Wf Cn Fp Dp Ne. unfold evaluate_line_shortest_path. apply (shortest_path_with_ok (fun w => (0 <= w)%R) order spath (real_ops fs) g Ord (good_spath_finds _ Sp) (real_ops_good fs) Wf Cn); [|exact Ne].
  intros e I. apply Dp in I. cbn [wo_init real_ops]. unfold distance_func. apply Rmult_le_pos; [lra|].
  assert (0 <= snd e / fs)%R by (apply Rmult_le_pos; [auto|left; apply Rinv_0_lt_compat; auto]). nra. Qed.
