(** Connected components: the search gives exactly the linked nodes. *)
From Verif Require Import Base BaseFacts Graph SpecGraph GraphFacts.

Lemma incl_nodup_length {A} (l m : list A) : NoDup l -> incl l m -> (length l <= length m)%nat.
Proof. apply NoDup_incl_length. Qed.

Lemma NoDup_app {A} (l m : list A) : NoDup l -> NoDup m -> (forall x, In x l -> In x m -> False) -> NoDup (l ++ m).
Proof. induction 1 as [|a l Na Nl IH]; cbn; intros Nm D; auto. constructor; [|apply IH; eauto]. rewrite in_app_iff. intros [X|X]; [auto|]. eapply D; eauto. Qed.

Section Components.
  Context {A W : Type} `{EqDec A}.
  Variable g : graph A W.
  Hypothesis G : wf_graph g.
  Let N := length (g_nodes g).

  Lemma has_edge_nodes u v : has_edge g u v -> In v (g_nodes g).
  Proof. intros E. apply (wf_ends G E). Qed.

  Lemma bfs_spec u fuel : forall seen frontier,
    In u seen -> NoDup seen -> incl frontier seen -> incl seen (g_nodes g) -> (N - length seen < fuel)%nat ->
    (forall x, In x seen -> linked (has_edge g) u x) ->
    (forall x y, In x seen -> ~ In x frontier -> has_edge g x y -> In y seen) ->
    let r := bfs fuel g seen frontier in
    In u r /\ NoDup r /\ incl r (g_nodes g) /\ (forall x, In x r -> linked (has_edge g) u x) /\
    (forall x y, In x r -> has_edge g x y -> In y r).
  Proof. induction fuel as [|fuel IH]; intros seen frontier Iu Nd If Is Fl L C; [lia|].
    destruct frontier as [|f fs] eqn:Ef.
    { cbn. repeat (split; auto). intros x y Hx E. apply (C x y Hx); auto. }
    cbn [bfs]. rewrite <- Ef in *. set (next := dedup (filter (fun x => negb (mem x seen)) (flat_map (neighbors g) frontier))).
    assert (Hn : forall x, In x next <-> ~ In x seen /\ exists y, In y frontier /\ has_edge g y x).
    { intros x. unfold next. rewrite in_dedup, filter_In, negb_true_iff, mem_false, in_flat_map. split.
      - intros [(y & Iy & Ix) Nx]. split; auto. exists y. split; auto. apply in_neighbors. auto.
      - intros [Nx (y & Iy & Ix)]. split; auto. exists y. split; auto. apply in_neighbors. auto. }
    assert (Sn : incl next (g_nodes g)). { intros x Hx. apply Hn in Hx as (_ & y & Iy & E). apply (has_edge_nodes _ _ E). }
    assert (Nd' : NoDup (seen ++ next)).
    { apply NoDup_app; auto; [apply NoDup_dedup|]. intros x Hs Hx. apply Hn in Hx. tauto. }
    assert (Le : (length (seen ++ next) <= N)%nat). { apply incl_nodup_length; auto. intros x Hx. apply in_app_iff in Hx as [Hx|Hx]; auto. }
    destruct next as [|n next'] eqn:En.
    - assert (R : bfs fuel g (seen ++ []) [] = seen) by (rewrite app_nil_r; destruct fuel; reflexivity). rewrite R. repeat (split; auto).
      intros x y Hx E. destruct (mem y seen) eqn:M; [apply mem_spec; auto|]. apply mem_false in M. exfalso.
      destruct (mem x frontier) eqn:Mf; [apply mem_spec in Mf|apply mem_false in Mf; apply M; eauto].
      apply (in_nil (a := y)). apply Hn. eauto.
    - rewrite <- En in *. apply IH.
      + apply in_app_iff. auto.
      + auto.
      + intros x Hx. apply in_app_iff. auto.
      + intros x Hx. apply in_app_iff in Hx as [Hx|Hx]; auto.
      + rewrite app_length in *. rewrite En in *. cbn [length] in *. lia.
      + intros x Hx. apply in_app_iff in Hx as [Hx|Hx]; auto. apply Hn in Hx as (_ & y & Iy & E). eapply linked_trans; [apply L; apply If; eauto|]. apply linked_one. auto.
      + intros x y Hx Nx E. apply in_app_iff in Hx as [Hx|Hx]; [|tauto]. apply in_app_iff. destruct (mem y seen) eqn:M; [apply mem_spec in M; auto|]. apply mem_false in M. right. apply Hn. split; auto.
        destruct (mem x frontier) eqn:Mf; [apply mem_spec in Mf; eauto|]. apply mem_false in Mf. destruct M. apply (C x y Hx Mf E). Qed.

  Lemma component_spec u : In u (g_nodes g) -> NoDup (component g u) /\ In u (component g u) /\ incl (component g u) (g_nodes g) /\
    forall x, In x (component g u) <-> linked (has_edge g) u x.
  Proof. intros Iu. assert (Np : (0 < N)%nat). { unfold N. destruct (g_nodes g); [destruct Iu|cbn; lia]. }
    destruct (bfs_spec u (length (g_nodes g)) [u] [u]) as (A1 & A2 & A3 & A4 & A5).
    - left; auto.
    - constructor; [auto|constructor].
    - apply incl_refl.
    - intros x [<-|[]]. auto.
    - cbn [length]. fold N. lia.
    - intros x [<-|[]]. apply linked_refl.
    - intros x y Hx Nx. tauto.
    - repeat (split; auto). intros L. eapply (linked_closed (R := has_edge g) (fun x => In x (component g u))); eauto. Qed.

  Definition comps_ok (done : list A) (acc : list (list A)) : Prop :=
    (forall c, In c acc -> exists u, In u (g_nodes g) /\ c = component g u) /\
    (forall u, In u done -> exists c, In c acc /\ In u c) /\
    NoDup (concat acc).
  Lemma nodup_concat_snoc (acc : list (list A)) c : NoDup (concat acc) -> NoDup c -> (forall x, In x c -> ~ In x (concat acc)) -> NoDup (concat (acc ++ [c])).
  Proof. intros Na Nc D. rewrite concat_app. cbn. rewrite app_nil_r. apply NoDup_app; auto. intros x Ha Hc. exact (D x Hc Ha). Qed.
  Lemma components_fold todo : forall done acc, incl (done ++ todo) (g_nodes g) -> comps_ok done acc ->
    comps_ok (done ++ todo) (fold_left (fun acc u => if existsb (mem u) acc then acc else acc ++ [component g u]) todo acc).
  Proof. induction todo as [|u todo IH]; intros done acc Inc (C1 & C2 & C3); [rewrite app_nil_r; split; auto|]. cbn [fold_left].
    assert (Iu : In u (g_nodes g)) by (apply Inc, in_app_iff; right; left; auto).
    replace (done ++ u :: todo) with ((done ++ [u]) ++ todo) in * by (rewrite <- app_assoc; reflexivity). apply IH; auto.
    destruct (component_spec u Iu) as (D1 & D2 & D3 & D4).
    destruct (existsb (mem u) acc) eqn:E.
    - split; auto. split; auto. intros x Hx. apply in_app_iff in Hx as [Hx|[<-|[]]]; auto. apply existsb_exists in E as (c & Ic & M). apply mem_spec in M. eauto.
    - split; [|split].
      + intros c Ic. apply in_app_iff in Ic as [Ic|[<-|[]]]; eauto.
      + intros x Hx. apply in_app_iff in Hx as [Hx|[<-|[]]].
        * destruct (C2 x Hx) as (c & Ic & Ix). exists c. split; auto. apply in_app_iff. auto.
        * exists (component g u). split; auto. apply in_app_iff. right. left. auto.
      + apply nodup_concat_snoc; auto. intros x Hx Hc. apply in_concat in Hc as (c & Ic & Ix). destruct (C1 c Ic) as (v & Iv & ->).
        destruct (component_spec v Iv) as (_ & _ & _ & V4). apply D4 in Hx. apply V4 in Ix.
        assert (Iuc : In u (component g v)). { apply V4. eapply linked_trans; [exact Ix|]. apply linked_sym; [apply has_edge_sym|auto]. }
        assert (X : existsb (mem u) acc = true) by (apply existsb_exists; exists (component g v); split; auto; apply mem_spec; auto). congruence. Qed.

  Theorem components_spec : comps_ok (g_nodes g) (components g).
  Proof. unfold components. apply (components_fold (g_nodes g) []); [apply incl_refl|]. split; [intros c []|]. split; [intros u []|constructor]. Qed.
End Components.
