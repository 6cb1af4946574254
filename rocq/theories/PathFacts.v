(** Facts about paths; a function that finds shortest paths exists. *)
From Verif Require Import Base BaseFacts Graph SpecGraph GraphFacts GraphComponents Paths SpecPath Dimension Ballistic.
From Coq Require Import Reals Psatz.
From Coq Require Import Lra.
Open Scope list_scope.

Section Walk.
  Context {A : Type} `{EqDec A}.
  Variable (Rel : A -> A -> Prop).
  Variable (w : A -> A -> R).
  Hypothesis Wn : forall a b, (0 <= w a b)%R.

  (** weight of the walk [u :: p] *)
  Fixpoint wsum (u : A) (p : list A) : R := match p with [] => 0%R | x :: p' => (w u x + wsum x p')%R end.
  Lemma wsum_nonneg u p : (0 <= wsum u p)%R.
  Proof. revert u; induction p as [|x p IH]; intros u; cbn; [lra|]. pose proof (Wn u x). pose proof (IH x). lra. Qed.
  Lemma wsum_app u p x q : wsum u (p ++ x :: q) = (wsum u (p ++ [x]) + wsum x q)%R.
  Proof. revert u; induction p as [|y p IH]; intros u; cbn; [lra|]. rewrite IH. lra. Qed.
  Lemma follows_app u p x q : follows Rel u (p ++ x :: q) <-> follows Rel u (p ++ [x]) /\ follows Rel x q.
  Proof. revert u; induction p as [|y p IH]; intros u; cbn; [tauto|]. rewrite IH. tauto. Qed.
  Lemma last_app_cons (p : list A) x q d : last (p ++ x :: q) d = last (x :: q) d.
  Proof. induction p as [|y p IH]; [reflexivity|]. rewrite <- IH. cbn [app]. destruct (p ++ x :: q) eqn:E; [destruct p; discriminate|reflexivity]. Qed.
  (** a walk can be shortened to a walk without repetition *)
  Lemma shorten n : forall u p, (length p <= n)%nat -> follows Rel u p -> exists p', follows Rel u p' /\ last (u :: p') u = last (u :: p) u /\ NoDup (u :: p') /\ incl p' p /\ (wsum u p' <= wsum u p)%R.
  Proof. induction n as [|n IH]; intros u p L F.
    - destruct p; [|cbn in L; lia]. exists []. repeat split; auto. constructor; [intros []|constructor]. intros z []. cbn; lra.
    - destruct (in_dec eq_dec u p) as [I|N].
      + apply in_split in I as (p1 & p2 & ->). apply follows_app in F as (_ & F). destruct (IH u p2) as (p' & F' & La & Nd & Inc & Le); auto.
        { rewrite app_length in L. cbn in L. lia. }
        exists p'. split; auto. split. { rewrite La. change (u :: p1 ++ u :: p2) with ((u :: p1) ++ u :: p2). rewrite last_app_cons. reflexivity. }
        split; auto. split. { intros z Iz. apply in_app_iff. right; right. apply Inc; auto. }
        rewrite wsum_app. pose proof (wsum_nonneg u (p1 ++ [u])). lra.
      + destruct p as [|x p]. { exists []. repeat split; auto. constructor; [intros []|constructor]. intros z []. cbn; lra. }
        destruct F as (Fx & F). destruct (IH x p) as (p' & F' & La & Nd & Inc & Le); auto. { cbn in L; lia. }
        exists (x :: p'). split; [split; auto|]. split. { rewrite !last_cons. rewrite (last_default x p' u x), La. apply last_default. }
        split. { constructor; auto. intros [->|I]; apply N; [left; auto|right; apply Inc; auto]. }
        split. { intros z [->|Iz]; [left; auto|right; apply Inc; auto]. }
        cbn. lra. Qed.
End Walk.

Section Facts.
  Context {A W : Type} `{EqDec A}.
  Implicit Types g : graph A W.

  Lemma follows_nodes g u p : wf_graph g -> In u (g_nodes g) -> follows (has_edge g) u p -> incl (u :: p) (g_nodes g).
  Proof. intros Wf. revert u; induction p as [|x p IH]; intros u Iu F z [->|Iz]; auto; [destruct Iz|]. destruct F as (E & F). apply (IH x); auto. apply (wf_ends Wf E). Qed.
  Lemma linked_short g u v : wf_graph g -> In u (g_nodes g) -> linked (has_edge g) u v -> exists p, follows (has_edge g) u p /\ last (u :: p) u = v /\ (length p < length (g_nodes g))%nat.
  Proof. intros Wf Iu (p & F & L). destruct (shorten (has_edge g) (fun _ _ => 0%R) (fun _ _ => Rle_refl 0) (length p) u p (le_n _) F) as (p' & F' & La & Nd & _ & _).
    exists p'. split; auto. split; [congruence|]. pose proof (incl_nodup_length _ _ Nd (follows_nodes g u p' Wf Iu F')) as X. cbn in X. lia. Qed.

  Lemma ball_spec g u k x : In x (ball g u k) <-> exists p, follows (has_edge g) u p /\ last (u :: p) u = x /\ (length p <= k)%nat.
  Proof. revert x; induction k as [|k IH]; intros x.
    - cbn. split.
      + intros [<-|[]]. exists []. cbn; auto.
      + intros (p & _ & L & Le). destruct p; [|cbn in Le; lia]. left; auto.
    - cbn [ball]. rewrite in_dedup, in_app_iff, in_flat_map. split.
      + intros [I|(y & I & J)].
        * apply IH in I as (p & F & L & Le). exists p. split; auto.
        * apply IH in I as (p & F & L & Le). exists (p ++ [x]). apply in_neighbors in J. split.
          { clear Le IH. revert u F L. induction p as [|z p IHp]; intros u F L; cbn; [cbn in L; subst; auto|]. destruct F as (Fz & F). split; auto. apply IHp; auto. rewrite last_cons in L. rewrite (last_default z p z u). auto. }
          split; [|rewrite app_length; cbn; lia]. change (u :: p ++ [x]) with ((u :: p) ++ [x]). apply last_last.
      + intros (p & F & L & Le). destruct (Nat.eq_dec (length p) (S k)) as [E|N].
        * right. destruct p as [|z p _] using rev_ind; [discriminate|]. rewrite app_length in E; cbn in E. exists (last (u :: p) u). split.
          { apply IH. exists p. split; [|split; auto; lia]. apply follows_app in F. clear - F. destruct F as (F & _). revert u F. induction p as [|y p IHp]; intros u F; cbn; auto. destruct F. split; auto. }
          change (u :: p ++ [z]) with ((u :: p) ++ [z]) in L. rewrite last_last in L. subst z. apply in_neighbors. clear - F. revert u F. induction p as [|y p IHp]; intros u F; [destruct F; auto|]. rewrite last_cons. destruct F as (_ & F). rewrite (last_default y p u y). apply IHp; auto.
        * left. apply IH. exists p. split; auto. split; auto. lia. Qed.

  Lemma find_seq (f : nat -> bool) n k : find f (seq 0 n) = Some k -> f k = true /\ (k < n)%nat /\ forall j, (j < k)%nat -> f j = false.
  Proof. cut (forall s, find f (seq s n) = Some k -> f k = true /\ (s <= k < s + n)%nat /\ forall j, (s <= j < k)%nat -> f j = false).
    { intros C F. apply C in F as (a & b & c). split; auto. split; [lia|]. intros j Lj. apply c. lia. }
    induction n as [|n IH]; intros s F; [discriminate|]. cbn in F. destruct (f s) eqn:E.
    - injection F as <-. split; auto. split; [lia|]. intros j Lj; lia.
    - apply IH in F as (a & b & c). split; auto. split; [lia|]. intros j Lj. destruct (Nat.eq_dec j s) as [->|]; auto. apply c. lia. Qed.

  Lemma hops_some g u v k : hops g u v = Some k -> (exists p, follows (has_edge g) u p /\ last (u :: p) u = v /\ length p = k) /\
    forall p, follows (has_edge g) u p -> last (u :: p) u = v -> (k <= length p)%nat.
  Proof. intros F. apply find_seq in F as (a & b & c).
    assert (Min : forall p, follows (has_edge g) u p -> last (u :: p) u = v -> (k <= length p)%nat).
    { intros p Fp Lp. destruct (le_lt_dec k (length p)) as [|Lt]; auto. apply c in Lt. exfalso. assert (mem v (ball g u (length p)) = true); [|congruence]. apply mem_spec, ball_spec. exists p; auto. }
    split; auto. apply mem_spec, ball_spec in a as (p & Fp & Lp & Le). exists p. split; auto. split; auto. pose proof (Min p Fp Lp). lia. Qed.
  Lemma hops_linked g u v : wf_graph g -> In u (g_nodes g) -> linked (has_edge g) u v -> exists k, hops g u v = Some k.
  Proof. intros Wf Iu L. destruct (linked_short g u v Wf Iu L) as (p & F & La & Lt). unfold hops. destruct (find _ _) as [k|] eqn:E; [eauto|]. exfalso.
    pose proof (find_none _ _ E (length p)) as X. assert (In (length p) (seq 0 (length (g_nodes g)))) as Y by (apply in_seq; lia). specialize (X Y). cbn in X. apply mem_false in X. apply X, ball_spec. exists p; auto. Qed.

  Lemma attr_in g u v w : wf_graph g -> In (u, v, w) (g_edges g) -> edge_attr g u v = Some w.
  Proof. intros Wf I. unfold edge_attr. pose proof (wg_simple Wf) as S. clear Wf. induction S as [|e l F S IH]; [destruct I|]. cbn [find]. destruct I as [->|I].
    - assert (J : joins u v (u, v, w) = true) by (apply joins_spec; left; auto). rewrite J. reflexivity.
    - destruct (joins u v e) eqn:J; auto. exfalso. apply (proj1 (Forall_forall _ _) F) in I. apply (joins_apart u v) with (e := e) (f := (u, v, w)); auto. apply joins_spec; left; auto. Qed.

  (** changes of attributes *)
  Lemma map_attr_edges {W'} (f : W -> W') g u v : has_edge (map_attr f g) u v <-> has_edge g u v.
  Proof. unfold has_edge, map_attr; cbn. split.
    - intros (w' & [I|I]); apply in_map_iff in I as ([[a b] w] & E & I); cbn in E; injection E as -> -> _; exists w; auto.
    - intros (w & [I|I]); exists (f w); [left|right]; apply in_map_iff; eexists; split; [|apply I| |apply I]; reflexivity. Qed.
  Lemma simple_map_attr {W'} (f : W -> W') (l : list (A * A * W)) : ForallOrdPairs apart l -> ForallOrdPairs apart (map (fun e => (fst e, f (snd e))) l).
  Proof. induction 1 as [|e l F _ IH]; cbn; constructor; auto. apply Forall_forall. intros x Ix. apply in_map_iff in Ix as (y & <- & Iy). apply (proj1 (Forall_forall _ _) F) in Iy. exact Iy. Qed.
  Lemma wf_map_attr {W'} (f : W -> W') g : wf_graph g -> wf_graph (map_attr f g).
  Proof. intros [N E S]. constructor; cbn; auto; [|apply simple_map_attr; auto]. intros u v w' I. apply in_map_iff in I as ([[a b] w] & X & I). cbn in X. injection X as -> -> _. apply (E _ _ _ I). Qed.
  Lemma update_attr_edges f a b g u v : has_edge (update_attr f a b g) u v <-> has_edge g u v.
  Proof. unfold has_edge, update_attr; cbn. split.
    - intros (w' & [I|I]); apply in_map_iff in I as ([[x y] w] & E & I); destruct (joins a b _) in E; cbn in E; injection E as -> -> _; exists w; auto.
    - intros (w & [I|I]); [exists (if joins a b (u, v, w) then f w else w); left|exists (if joins a b (v, u, w) then f w else w); right]; apply in_map_iff; eexists; (split; [|apply I]); cbn [fst snd]; destruct (joins a b _); reflexivity. Qed.
  Lemma update_attr_nodes f a b g : g_nodes (update_attr f a b g) = g_nodes g. Proof. reflexivity. Qed.
  Lemma wf_update_attr f a b g : wf_graph g -> wf_graph (update_attr f a b g).
  Proof. intros [N E S]. constructor; cbn; auto.
    - intros u v w' I. apply in_map_iff in I as ([[x y] w] & X & I). apply E in I. destruct (joins a b _) in X; cbn in X; injection X as -> -> _; auto.
    - apply simple_map; auto. intros e. destruct (joins a b e); auto. Qed.
  Lemma update_attr_neighbors f a b g u : neighbors (update_attr f a b g) u = neighbors g u.
  Proof. unfold neighbors, update_attr; cbn. rewrite flat_map_concat_map, map_map, <- flat_map_concat_map. apply flat_map_ext. intros e. unfold other, end1, end2. destruct (joins a b e); reflexivity. Qed.
End Facts.

(** ** a function that finds shortest paths *)
Section Exists.
  Context {A : Type} `{EqDec A}.
  Implicit Types g : graph A R.

  (** the walks from [u] to [v] with at most [k] steps *)
  Fixpoint walks g (k : nat) (u v : A) : list (list A) :=
    (if eqb u v then [[]] else []) ++ match k with O => [] | S k' => flat_map (fun x => map (cons x) (walks g k' x v)) (neighbors g u) end.
  Lemma walks_spec g k : forall u v p, In p (walks g k u v) <-> follows (has_edge g) u p /\ last (u :: p) u = v /\ (length p <= k)%nat.
  Proof. induction k as [|k IH]; intros u v p; cbn [walks]; rewrite in_app_iff.
    - split.
      + intros [I|[]]. unfold eqb in I. destruct (eq_dec u v) as [->|]; [|destruct I]. destruct I as [<-|[]]. cbn; auto.
      + intros (_ & L & Le). destruct p; [|cbn in Le; lia]. cbn in L. left. subst. unfold eqb. destruct (eq_dec v v); [left; auto|congruence].
    - rewrite in_flat_map. split.
      + intros [I|(x & Ix & I)]. { unfold eqb in I. destruct (eq_dec u v) as [->|]; [|destruct I]. destruct I as [<-|[]]. cbn; auto with arith. }
        apply in_map_iff in I as (q & <- & I). apply IH in I as (F & L & Le). apply in_neighbors in Ix. split; [split; auto|]. split; [|cbn; lia]. rewrite last_cons. rewrite (last_default x q u x). auto.
      + intros (F & L & Le). destruct p as [|x p]; [left; cbn in L; subst; unfold eqb; destruct (eq_dec v v); [left; auto|congruence]|]. right. destruct F as (Fx & F). exists x. split; [apply in_neighbors; auto|]. apply in_map. apply IH. split; auto. split; [|cbn in Le; lia].
        rewrite last_cons in L. rewrite (last_default x p x u). auto. Qed.

  Lemma argmax_max {B} (f : B -> R) l a : argmax f l = Some a -> In a l /\ forall b, In b l -> (f b <= f a)%R.
  Proof. revert a; induction l as [|x l IH]; intros a E; [discriminate|]. cbn in E. destruct (argmax f l) as [m|] eqn:Em.
    - destruct (IH m eq_refl) as (Im & Mm). unfold rgt in E. destruct (Rlt_dec (f x) (f m)) in E; injection E as <-; split; auto; [right; auto| |left; auto|].
      + intros b [->|Ib]; [lra|auto].
      + intros b [->|Ib]; [lra|]. apply Mm in Ib. lra.
    - injection E as <-. split; [left; auto|]. destruct l; [|cbn in Em; destruct (argmax f l); [destruct (rgt _ _) in Em|]; discriminate]. intros b [->|[]]. lra. Qed.

  Lemma edge_weight_nonneg g u v : nonneg_weights g -> (0 <= edge_weight g u v)%R.
  Proof. intros N. unfold edge_weight, edge_attr. destruct (find _ _) as [e|] eqn:E; [|lra]. apply find_some in E as (I & _). apply N; auto. Qed.
  Lemma path_weight_wsum g u p : path_weight g (u :: p) = wsum (edge_weight g) u p.
  Proof. revert u; induction p as [|x p IH]; intros u; [reflexivity|]. unfold path_weight in *. cbn [path_edges map fold_right wsum fst snd]. rewrite <- IH. reflexivity. Qed.

  Fixpoint nodupb (l : list A) : bool := match l with [] => true | x :: l' => negb (mem x l') && nodupb l' end.
  Lemma nodupb_spec l : nodupb l = true <-> NoDup l.
  Proof. induction l as [|x l IH]; cbn; [split; auto; constructor|]. rewrite andb_true_iff, negb_true_iff, mem_false, IH. split; [intros []; constructor; auto|intros N; inversion N; auto]. Qed.
  Definition some_spath g (u v : A) : option (list A) :=
    match argmax (fun p => - path_weight g (u :: p))%R (filter (fun p => nodupb (u :: p)) (walks g (length (g_nodes g)) u v)) with Some p => Some (u :: p) | None => None end.
  Theorem some_spath_good : good_spath some_spath.
  Proof. intros g u v Wf Nn Iu Iv. unfold some_spath. destruct (argmax _ _) as [p|] eqn:E.
    - apply argmax_max in E as (I & M). apply filter_In in I as (I & Nd0). apply nodupb_spec in Nd0. apply walks_spec in I as (F & L & _). split; [exists p; auto|]. split; auto. intros p' (q & -> & Fq & Lq).
      destruct (shorten (has_edge g) (edge_weight g) (fun a b => edge_weight_nonneg g a b Nn) (length q) u q (le_n _) Fq) as (q' & F' & La & Nd & _ & Le).
      assert (Iq : In q' (filter (fun p => nodupb (u :: p)) (walks g (length (g_nodes g)) u v))).
      { apply filter_In. split; [|apply nodupb_spec; auto]. apply walks_spec. split; auto. split; [congruence|]. pose proof (incl_nodup_length _ _ Nd (follows_nodes g u q' Wf Iu F')) as X. cbn in X. lia. }
      apply M in Iq. rewrite !path_weight_wsum in *. lra.
    - intros (q & Fq & Lq).
      destruct (shorten (has_edge g) (edge_weight g) (fun a b => edge_weight_nonneg g a b Nn) (length q) u q (le_n _) Fq) as (q' & F' & La & Nd & _ & Le).
      assert (Iq : In q' (filter (fun p => nodupb (u :: p)) (walks g (length (g_nodes g)) u v))).
      { apply filter_In. split; [|apply nodupb_spec; auto]. apply walks_spec. split; auto. split; [congruence|]. pose proof (incl_nodup_length _ _ Nd (follows_nodes g u q' Wf Iu F')) as X. cbn in X. lia. }
      destruct (filter _ _) as [|x l]; [destruct Iq|]. cbn in E. destruct (argmax _ l); [destruct (rgt _ _) in E|]; discriminate. Qed.
End Exists.
