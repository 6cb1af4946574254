(** What the patching of holes and the removal of duplicate paths achieve. *)
From Verif Require Import Base BaseFacts CoordSys SpecGeom CoordSysFacts GeomCombined CoordSysR Graph SpecGraph GraphFacts Paths SpecPath SpecCluster PathFacts ShortestPathFacts Dimension DomSet SpecDomSet DomSetFacts.
From Coq Require Import Reals Psatz.
From Coq Require Import Lra.
Open Scope list_scope.

Fixpoint ssorted (l : list (point * point * R)) : Prop :=
  match l with [] => True | x :: r => (forall y, In y r -> (snd x <= snd y)%R) /\ ssorted r end.
Lemma insert_ssorted x l : ssorted l -> ssorted (insert_by (fun a b => rle (snd a) (snd b)) x l).
Proof. induction l as [|y l IH]; intros H; cbn [insert_by]; [cbn; tauto|]. destruct H as (Hy & H). unfold rle at 1. destruct (rgt (snd x) (snd y)) eqn:E; cbn [negb].
  - apply rgt_true in E. split; auto. intros z Hz. apply (Permutation_in _ (insert_by_perm _ _ _)) in Hz as [<-|Hz]; [lra|auto].
  - apply rgt_false in E. split; [|split; auto]. intros z [<-|Hz]; auto. specialize (Hy z Hz). lra. Qed.
Lemma sort_ssorted l : ssorted (sort_by (fun a b => rle (snd a) (snd b)) l).
Proof. unfold sort_by. induction l as [|x l IH]; [exact I|]. cbn. apply insert_ssorted; auto. Qed.

Section Ways.
  Variable cs : coordsys.
  (** a path along [Rel] of at most the given length *)
  Definition way (Rel : point -> point -> Prop) (a b : point) (l : R) : Prop :=
    exists q, follows Rel a q /\ last (a :: q) a = b /\ (total cs a q <= l)%R.
  Lemma way_refl Rel a : way Rel a a 0.
  Proof. exists []. cbn. split; auto. split; auto. lra. Qed.
  Lemma way_le Rel a b l m : way Rel a b l -> (l <= m)%R -> way Rel a b m.
  Proof. intros (q & F & L & T) H. exists q. split; auto. split; auto. lra. Qed.
  Lemma way_mono (P Q : point -> point -> Prop) a b l : (forall x y, P x y -> Q x y) -> way P a b l -> way Q a b l.
  Proof. intros H (q & F & L & T). exists q. split; auto. clear L T. revert a F. induction q as [|x q IH]; intros a F; cbn; auto. destruct F. split; auto. Qed.
  Lemma way_step (Rel : point -> point -> Prop) a b c l : Rel a b -> way Rel b c l -> way Rel a c (distance cs a b + l).
  Proof. intros H (q & F & L & T). exists (b :: q). split; [split; auto|]. split; [rewrite last_cons, (last_default b q a b); auto|]. cbn [total]. lra. Qed.
  Lemma way_one (Rel : point -> point -> Prop) a b : Rel a b -> way Rel a b (distance cs a b).
  Proof. intros H. apply (way_le _ _ _ (distance cs a b + 0)); [|lra]. apply way_step; auto. apply way_refl. Qed.
  Lemma way_trans (Rel : point -> point -> Prop) a b c l m : way Rel a b l -> way Rel b c m -> way Rel a c (l + m).
  Proof. intros (q & F & L & T) W. apply (way_le _ _ _ (total cs a q + m)); [|lra]. clear T. revert a F L. induction q as [|x q IH]; intros a F L.
    - cbn in L. subst b. cbn [total]. apply (way_le _ _ _ m); auto. lra.
    - destruct F as (Fx & F). apply (way_le _ _ _ (distance cs a x + (total cs x q + m))); [|cbn [total]; lra]. apply way_step; auto. apply IH; auto. rewrite last_cons in L. rewrite (last_default x q x a). auto. Qed.
  Lemma way_sym (Rel : point -> point -> Prop) a b l : (forall x y, Rel x y -> Rel y x /\ distance cs x y = distance cs y x) -> way Rel a b l -> way Rel b a l.
  Proof. intros S (q & F & L & T). apply (way_le _ _ _ (total cs a q)); auto. clear T. revert a F L. induction q as [|x q IH]; intros a F L.
    - cbn in L. subst b. cbn. apply way_refl.
    - destruct F as (Fx & F). destruct (S a x Fx) as (Fx' & E). cbn [total]. rewrite E, Rplus_comm. apply way_trans with x; [|apply way_one; auto]. apply IH; auto. rewrite last_cons in L. rewrite (last_default x q x a). auto. Qed.
  Lemma way_path (Rel : point -> point -> Prop) a q : follows Rel a q -> way Rel a (last (a :: q) a) (total cs a q).
  Proof. intros F. exists q. split; auto. split; auto. lra. Qed.
  (** an edge on a path: the parts before and after it *)
  Lemma path_split (Rel : point -> point -> Prop) q : forall a u v, follows Rel a q -> In (u, v) (path_edges (a :: q)) ->
    exists l m, way Rel a u l /\ Rel u v /\ way Rel v (last (a :: q) a) m /\ (l + distance cs u v + m <= total cs a q)%R.
  Proof. induction q as [|x q IH]; intros a u v F I; [destruct I|]. destruct F as (Fx & F). change (path_edges (a :: x :: q)) with ((a, x) :: path_edges (x :: q)) in I. destruct I as [E|I].
    - injection E as <- <-. exists 0%R, (total cs x q). split; [apply way_refl|]. split; auto. split; [|cbn [total]; lra]. rewrite last_cons, (last_default x q a x). apply way_path; auto.
    - destruct (IH x u v F I) as (l & m & W1 & Ruv & W2 & T). exists (distance cs a x + l)%R, m. split; [apply way_step; auto|]. split; auto. split; [rewrite last_cons, (last_default x q a x); auto|]. cbn [total]. lra. Qed.
End Ways.

Section DS.
  Variables (order : list point -> list point) (eorder : list (point * point * (R * option R)) -> list (point * point * (R * option R))).
  Variables (spath : graph point R -> point -> point -> option (list point)) (domset : graph point unit -> list point).
  Variables (cs : coordsys) (fs : R) (c : graph point R).
  Hypothesis Ord : any_order order.
  Hypothesis EOrd : any_order eorder.
  Hypothesis Sp : good_spath spath.
  Hypothesis Dm : good_domset domset.
  Hypothesis B : wf_box cs.
  Hypothesis Fp : (0 < fs)%R.
  Hypothesis Wf : wf_graph c.
  Hypothesis Cn : connected c.
  Hypothesis Ne : g_nodes c <> [].
  Hypothesis Ps : forall x, In x (g_nodes c) -> is_pos cs x.
  Hypothesis At : forall u v w, In (u, v, w) (g_edges c) -> w = distance cs u v.
  Hypothesis Near : forall u v, has_edge c u v -> (distance cs u v <= fs)%R.
  Hypothesis Adj : forall u v, In u (g_nodes c) -> In v (g_nodes c) -> u <> v -> (distance cs u v <= fs)%R -> has_edge c u v.
  Set Default Proof Using "All".

  Notation D := (chosen domset fs c).
  Notation sub := (sub0 order eorder domset fs c).
  Notation allf := (full c).
  Notation INV := (inv domset cs fs c).
  Definition DIN := chosen_in order eorder spath domset cs fs c Ord EOrd Sp Dm B Fp Wf Cn Ne Ps At Near.
  Definition SOK := sub0_ok order eorder spath domset cs fs c Ord EOrd Sp Dm B Fp Wf Cn Ne Ps At Near.
  Definition SNO := sub0_nodes order eorder spath domset cs fs c Ord EOrd Sp Dm B Fp Wf Cn Ne Ps At Near.
  Definition SED := sub0_edges order eorder spath domset cs fs c Ord EOrd Sp Dm B Fp Wf Cn Ne Ps At Near.
  Definition SPL := spath_length_ok order eorder spath domset cs fs c Ord EOrd Sp Dm B Fp Wf Cn Ne Ps At Near.
  Definition FSH := full_shortest order eorder spath domset cs fs c Ord EOrd Sp Dm B Fp Wf Cn Ne Ps At Near.
  Definition DSE := ds_edge order eorder spath domset cs fs c Ord EOrd Sp Dm B Fp Wf Cn Ne Ps At Near.
  Definition PHO := patch_hole_ok order eorder spath domset cs fs c Ord EOrd Sp Dm B Fp Wf Cn Ne Ps At Near.
  Definition FHO := find_holes_ok order eorder spath domset cs fs c Ord EOrd Sp Dm B Fp Wf Cn Ne Ps At Near.
  Definition HLI := holes_linked order eorder spath domset cs fs c Ord EOrd Sp Dm B Fp Wf Cn Ne Ps At Near.
  Definition SIN := sub0_inv order eorder spath domset cs fs c Ord EOrd Sp Dm B Fp Wf Cn Ne Ps At Near.
  Lemma edge_sym x y : has_edge c x y -> has_edge c y x /\ distance cs x y = distance cs y x.
  Proof. intros E. split; [apply has_edge_sym; auto|]. destruct (wf_ends Wf E). apply distance_sym; auto. Qed.
  Lemma way_long a b l : In a (g_nodes c) -> way cs (has_edge c) a b l -> (distance cs a b <= l)%R.
  Proof. intros Ia (q & F & L & T). assert (distance cs a b <= total cs a q)%R; [|lra]. clear T. revert a Ia F L. induction q as [|x q IH]; intros a Ia F L.
    - cbn in L. subst b. cbn [total]. assert (X : distance cs a a = 0%R) by (apply distance_zero; auto; destruct (periodic cs); [apply lattice_eq_refl; auto|auto]). lra.
    - destruct F as (Fx & F). destruct (wf_ends Wf Fx) as (_ & Ix). cbn [total]. assert (Lx : last (x :: q) x = b) by (rewrite last_cons in L; rewrite (last_default x q x a); auto). specialize (IH x Ix F Lx).
      assert (Ib : In b (g_nodes c)). { apply (follows_nodes c x q Wf Ix F). rewrite <- Lx. apply last_in. }
      pose proof (distance_triangle cs a x b B (Ps a Ia) (Ps x Ix) (Ps b Ib)). lra. Qed.

  (** in [h] the way from [a] to [b] is at most twice as long as any in the cluster *)
  Definition close_in (h : dgraph) (a b : point) : Prop := forall l, way cs (has_edge c) a b l -> way cs (has_edge h) a b (2 * l).
  Lemma close_sym h a b : dsub cs c h -> close_in h a b -> close_in h b a.
  Proof. intros Dh C l W. apply way_sym; [intros x y E; split; [apply has_edge_sym; auto|]; apply edge_sym; apply (DSE h); auto|]. apply C. apply way_sym; auto. apply edge_sym. Qed.
  Lemma close_mono h h' a b : (forall x y, has_edge h x y -> has_edge h' x y) -> close_in h a b -> close_in h' a b.
  Proof. intros M C l W. apply (way_mono cs (has_edge h)); auto. Qed.
  Lemma close_self h a : close_in h a a.
  Proof. intros l (q & _ & _ & T). apply (way_le _ _ _ _ 0); [apply way_refl|]. assert (0 <= total cs a q)%R; [|lra]. clear. revert a. induction q as [|x q IH]; intros a; cbn [total]; [lra|]. specialize (IH x). pose proof (distance_nonneg cs a x). lra. Qed.
  Lemma close_shortest h a b p l : shortest cs c a b p -> way cs (has_edge h) a b l -> (l <= 2 * total cs a p)%R -> close_in h a b.
  Proof. intros (_ & _ & M) W L m (q & F & La & T). apply (way_le _ _ _ _ l); auto. specialize (M q F La). lra. Qed.

  (** the first pass misses nothing *)
  Lemma find_holes_all ps : forall hs, (forall a b, In (a, b) ps -> In a D /\ In b D) -> find_holes spath cs fs sub allf ps = Ok hs ->
    (forall a b o, In (a, b, o) hs -> exists p, shortest cs c a b p /\ o = total cs a p /\ (o < 2 * fs)%R) /\
    forall a b l, In (a, b) ps -> way cs (has_edge c) a b l -> (l < 2 * fs)%R -> close_in sub a b \/ exists o, In (a, b, o) hs.
  Proof. induction ps as [|[a b] ps IH]; intros hs I E; [injection E as <-; split; [intros a b o []|intros a b l []]|].
    destruct (I a b (or_introl eq_refl)) as (Ia & Ib). assert (I' := fun x y J => I x y (or_intror J)). cbn [find_holes] in E.
    pose proof (DIN a Ia) as Ga. pose proof (DIN b Ib) as Gb.
    destruct (rgt (2 * fs) (distance cs a b)) eqn:E1.
    2:{ destruct (IH hs I' E) as (H1 & H2). split; auto. intros x y l [J|J] W L; [|eauto]. injection J as <- <-. apply rgt_false in E1. pose proof (way_long a b l Ga W). lra. }
    pose proof (SPL sub a b SOK (proj2 (SNO a) Ia) (proj2 (SNO b) Ib)) as X. destruct (spath (dist_graph sub) a b) as [p|] eqn:Es.
    2:{ unfold spath_length in E at 1. rewrite Es in E. discriminate. }
    destruct X as (q & -> & F & L & Eq & M). rewrite Eq in E. cbn [bind] in E. destruct (FSH a b Ga Gb) as (q0 & _ & S0 & E0).
    assert (W : way cs (has_edge sub) a b (total cs a q)) by (exists q; split; auto; split; auto; lra).
    assert (Sh : forall l, way cs (has_edge c) a b l -> (total cs a q0 <= l)%R). { intros l (q' & F' & L' & T'). destruct S0 as (_ & _ & M0). specialize (M0 q' F' L'). lra. }
    assert (D0 : (distance cs a b <= total cs a q0)%R). { apply way_long; auto. destruct S0 as (F0 & L0 & _). exists q0. split; auto. split; auto. lra. }
    pose proof (distance_nonneg cs a b) as Nn.
    destruct (rgt (total cs a q) (Rmax fs (patch_cutoff * distance cs a b))) eqn:E2.
    - rewrite E0 in E. cbn [bind] in E. destruct (find_holes spath cs fs sub allf ps) as [hs'|e]; [|discriminate]. cbn [bind] in E. destruct (IH hs' I' eq_refl) as (H1 & H2).
      destruct (rgt (total cs a q) (patch_cutoff * total cs a q0) && rgt (2 * fs) (total cs a q0)) eqn:E3; injection E as <-.
      + apply andb_true_iff in E3 as (_ & E4). apply rgt_true in E4. split.
        * intros x y o [J|J]; [|auto]. injection J as <- <- <-. exists q0. auto.
        * intros x y l [J|J] Wl Ll; [injection J as <- <-; right; exists (total cs a q0); left; auto|]. destruct (H2 x y l J Wl Ll) as [|(o & Ho)]; auto. right. exists o. right; auto.
      + split; auto. intros x y l [J|J] Wl Ll; [|eauto]. injection J as <- <-. left. specialize (Sh l Wl). apply andb_false_iff in E3 as [E3|E3]; apply rgt_false in E3; [|lra].
        apply (close_shortest sub a b q0 (total cs a q)); auto. unfold patch_cutoff in E3. lra.
    - destruct (IH hs I' E) as (H1 & H2). split; auto. intros x y l [J|J] Wl Ll; [|eauto]. injection J as <- <-. left. apply rgt_false in E2.
      apply (close_shortest sub a b q0 (total cs a q)); auto. destruct (Rle_or_lt (distance cs a b) fs) as [Hd|Hd].
      + destruct (eq_dec a b) as [->|Nab].
        * assert (total cs b q <= total cs b [])%R by (apply M; cbn; auto). cbn in H. lra.
        * assert (Eab : has_edge sub a b) by (apply SED; split; auto). assert (total cs a q <= total cs a [b])%R by (apply M; cbn; auto). cbn in H. lra.
      + assert (Lq : (distance cs a b <= total cs a q)%R). { apply way_long; auto. apply (way_mono cs (has_edge sub)); auto. intros x y. apply DSE. apply SOK. }
        unfold Rmax, patch_cutoff in E2. destruct (Rle_dec _ _); lra. Qed.

  (** no two different positions at distance zero *)
  Definition separated : Prop := forall u v, has_edge c u v -> (0 < distance cs u v)%R.
  (** edges between chosen positions have no weight *)
  Definition unweighted (h : dgraph) : Prop := separated -> forall u v a, In (u, v, a) (g_edges h) -> within c D u v -> snd a = None.
  Lemma within_sym u v : within c D u v -> within c D v u.
  Proof. intros (E & U & V). split; [apply has_edge_sym; auto|auto]. Qed.
  Lemma patch_holes_close hs : forall h, INV h -> unweighted h -> Forall (is_hole domset cs fs c) hs -> ssorted hs ->
    (forall a b o, In (a, b, o) hs -> exists p, shortest cs c a b p /\ o = total cs a p /\ (o < 2 * fs)%R) ->
    (forall a b l, In a D -> In b D -> way cs (has_edge c) a b l -> (l < 2 * fs)%R -> close_in h a b \/ (exists o, In (a, b, o) hs) \/ (exists o, In (b, a, o) hs)) ->
    exists h', patch_holes spath allf hs h = Ok h' /\ INV h' /\ unweighted h' /\
      forall a b l, In a D -> In b D -> way cs (has_edge c) a b l -> (l < 2 * fs)%R -> close_in h' a b.
  Proof. induction hs as [|[[a b] o] hs IH]; intros h Iv U Fh Ss Or Cl.
    { exists h. split; auto. split; auto. split; auto. intros a b l Ia Ib W L. destruct (Cl a b l Ia Ib W L) as [|[(? & [])|(? & [])]]; auto. }
    inversion Fh as [|? ? Hh Fh']; subst. pose proof Hh as (Ia & Ib & _). cbn [fst snd] in Ia, Ib. cbn [patch_holes]. destruct Ss as (S1 & Ss). destruct (Or a b o (or_introl eq_refl)) as (p & Sp' & Eo & Lo).
    assert (Or' : forall a b o, In (a, b, o) hs -> exists p, shortest cs c a b p /\ o = total cs a p /\ (o < 2 * fs)%R) by (intros; apply Or; right; auto).
    pose proof (SPL h a b (iv_sub _ _ _ _ h Iv) (iv_chosen _ _ _ _ h Iv a Ia) (iv_chosen _ _ _ _ h Iv b Ib)) as X. destruct (spath (dist_graph h) a b) as [p'|].
    2:{ exfalso. apply X. apply (iv_conn _ _ _ _ h Iv); apply (iv_chosen _ _ _ _ h Iv); auto. }
    destruct X as (q & _ & F & L & -> & M). cbn [bind]. destruct (rgt (total cs a q) (2 * o)) eqn:Eg.
    - apply rgt_true in Eg. destruct (PHO h a b Iv Hh) as (h' & q' & -> & Iv' & Sh' & Fo' & Mo & Ed). cbn [bind]. apply IH; auto.
      + intros Se u v w J Wi. destruct (Ed u v w J) as [J'|Pa]; [apply (U Se u v w); auto|]. exfalso.
        assert (Tq : total cs a q' = o). { destruct Sh' as (F' & L' & M'). destruct Sp' as (F2 & L2 & M2). specialize (M' p F2 L2). specialize (M2 q' F' L'). lra. }
        assert (Wi' : exists u v, within c D u v /\ In (u, v) (path_edges (a :: q'))). { destruct Pa as [Pa|Pa]; [exists u, v; auto|exists v, u; split; auto using within_sym]. }
        clear u v w J Wi Pa. destruct Wi' as (u & v & Wi & Pa). destruct Wi as (Euv & Iu & Iv2). pose proof Sh' as (F' & L' & _).
        destruct (path_split cs (has_edge c) q' a u v F' Pa) as (l & m & W1 & _ & W2 & T). rewrite L' in W2. pose proof (Se u v Euv) as Pos.
        assert (N0 : forall x y k, way cs (has_edge c) x y k -> (0 <= k)%R). { intros x y k (r & _ & _ & Tr). assert (0 <= total cs x r)%R; [|lra]. clear. revert x. induction r as [|z r IHr]; intros x; cbn [total]; [lra|]. specialize (IHr z). pose proof (distance_nonneg cs x z). lra. }
        pose proof (N0 _ _ _ W1) as Nl. pose proof (N0 _ _ _ W2) as Nm.
        assert (Small : forall x y k, way cs (has_edge c) x y k -> (k < o)%R -> ~ (exists o', In (x, y, o') ((a, b, o) :: hs))).
        { intros x y k Wk Lk (o' & J). destruct (Or x y o' J) as (r & Sr & -> & _). assert (total cs x r <= k)%R. { destruct Wk as (z & Fz & Lz & Tz). destruct Sr as (_ & _ & Mr). specialize (Mr z Fz Lz). lra. }
          destruct J as [J|J]; [injection J as -> -> J; lra|]. specialize (S1 _ J). cbn in S1. lra. }
        assert (C1 : close_in h a u). { destruct (Cl a u l Ia Iu W1) as [|[C|C]]; auto; [lra|exfalso; apply (Small a u l); auto; lra|exfalso; apply (Small u a l); [|lra|auto]]. apply way_sym; auto. apply edge_sym. }
        assert (C2 : close_in h v b). { destruct (Cl v b m Iv2 Ib W2) as [|[C|C]]; auto; [lra|exfalso; apply (Small v b m); auto; lra|exfalso; apply (Small b v m); [|lra|auto]]. apply way_sym; auto. apply edge_sym. }
        assert (Wh : way cs (has_edge h) a b (2 * l + (distance cs u v + 2 * m))). { apply way_trans with u; [apply C1; auto|]. apply way_step; [apply (iv_within _ _ _ _ h Iv); split; auto|]. apply C2; auto. }
        destruct Wh as (r & Fr & Lr & Tr). specialize (M r Fr Lr). lra.
      + intros x y l Ix Iy W Ll. destruct (Cl x y l Ix Iy W Ll) as [C|[(o' & [J|J])|(o' & [J|J])]]; eauto.
        * left. eapply close_mono; eauto.
        * injection J as <- <- <-. left. apply (close_shortest h' a b q' (total cs a q')); auto; [exists q'; split; auto; split; [apply Sh'|lra]|]. assert (0 <= total cs a q')%R; [|lra]. clear. revert a. induction q' as [|z r IHr]; intros x; cbn [total]; [lra|]. specialize (IHr z). pose proof (distance_nonneg cs x z). lra.
        * injection J as <- <- <-. left. apply close_sym; [apply Iv'|]. apply (close_shortest h' a b q' (total cs a q')); auto; [exists q'; split; auto; split; [apply Sh'|lra]|]. assert (0 <= total cs a q')%R; [|lra]. clear. revert a. induction q' as [|z r IHr]; intros x; cbn [total]; [lra|]. specialize (IHr z). pose proof (distance_nonneg cs x z). lra.
    - apply rgt_false in Eg. cbn [bind]. assert (Cab : close_in h a b). { apply (close_shortest h a b p (total cs a q)); auto; [exists q; split; auto; split; auto; lra|lra]. }
      apply IH; auto. intros x y l Ix Iy W Ll. destruct (Cl x y l Ix Iy W Ll) as [C|[(o' & [J|J])|(o' & [J|J])]]; eauto.
      + injection J as <- <- <-. auto.
      + injection J as <- <- <-. left. apply close_sym; auto. apply Iv. Qed.

  (** the whole patching *)
  Theorem patched : (forall a b, In a D -> In b D -> linked (within c D) a b) ->
    exists h, patch_all_subgraph_holes spath cs fs sub allf = Ok h /\ INV h /\ unweighted h /\
      forall a b l, In a D -> In b D -> way cs (has_edge c) a b l -> (l < 2 * fs)%R -> close_in h a b.
  Proof. intros Lk. unfold patch_all_subgraph_holes. assert (Ip : forall a b, In (a, b) (pairs (g_nodes sub)) -> In a D /\ In b D). { intros a b I. apply in_pairs in I. rewrite !SNO in I. auto. }
    destruct (FHO (pairs (g_nodes sub)) Ip) as [(_ & a & b & Ia & Ib & N)|(hs & E & Fh & _)]; [exfalso; apply N; apply Lk; auto|]. rewrite E. cbn [bind]. destruct (find_holes_all _ hs Ip E) as (H1 & H2).
    apply patch_holes_close.
    - apply SIN; auto.
    - intros _ u v a J _. apply subgraph_in in J as (J & _); auto. cbn in J. apply in_map_iff in J as (e & Ee & _). injection Ee as _ <-. reflexivity.
    - apply Forall_forall. intros x Ix. apply (proj1 (Forall_forall _ _) Fh). apply (Permutation_in _ (sort_by_perm _ _) Ix).
    - apply sort_ssorted.
    - intros a b o J. apply H1. apply (Permutation_in _ (sort_by_perm _ _) J).
    - intros a b l Ia Ib W L. assert (P : forall x, In x hs -> In x (sort_by (fun a b => rle (snd a) (snd b)) hs)) by (intros x Ix; apply (Permutation_in _ (Permutation_sym (sort_by_perm _ _)) Ix)).
      destruct (eq_dec a b) as [->|N]; [left; apply close_self|]. destruct (pairs_all (g_nodes sub) a b) as [J|J]; try (apply SNO; auto); auto.
      + destruct (H2 a b l J W L) as [C|(o & Ho)]; eauto.
      + destruct (H2 b a l J) as [C|(o & Ho)]; eauto; [apply way_sym; auto; apply edge_sym|]. left. apply close_sym; auto. apply SOK. Qed.
  (** so that edges between chosen positions never get a weight *)
  Theorem never_works : separated -> forall r, evaluate_line_dominating_set order eorder spath domset cs fs c = Ok r -> forall a b, ~ within c D a b.
  Proof. intros Se r E a b Wi. unfold evaluate_line_dominating_set in E. change (domset (reduced_graph fs c)) with D in E. change (subgraph order eorder (map_attr (fun d => (d, None)) c) D) with sub in E. change (with_weights c) with allf in E.
    destruct (FHO (pairs (g_nodes sub))) as [(E1 & _)|(hs & E1 & _ & L)]; [intros x y I; apply in_pairs in I; rewrite !SNO in I; auto|unfold patch_all_subgraph_holes in E; rewrite E1 in E; discriminate|].
    destruct (patched (HLI L)) as (h & Eh & Iv & U & _). rewrite Eh in E. cbn [bind] in E. unfold remove_duplicate_paths in E. destruct (forallb has_weight (g_edges h)) eqn:Fw; [|discriminate].
    rewrite forallb_forall in Fw. destruct (iv_within _ _ _ _ h Iv a b Wi) as (w & [J|J]); specialize (Fw _ J); unfold has_weight in Fw; cbn [snd] in Fw.
    - rewrite (U Se a b w J Wi) in Fw. discriminate.
    - rewrite (U Se b a w J (within_sym a b Wi)) in Fw. discriminate. Qed.
End DS.
