(** Facts about counting dimensions and drawing tuples. *)
From Verif Require Import Base BaseFacts CoordSys SpecGeom CoordSysFacts GeomCombined CoordSysR Queue QueueFacts Graph SpecGraph GraphFacts Dimension SpecDim.
From Coq Require Import Reals Sorted.
Open Scope list_scope.
Open Scope nat_scope.

(** ** Counter *)
Fixpoint lookup (d : nat) (c : counter) : nat :=
  match c with [] => 0 | (k, n) :: c' => if Nat.eqb k d then n else lookup d c' end.
Lemma lookup_add d e c : lookup e (counter_add d c) = lookup e c + (if Nat.eqb d e then 1 else 0).
Proof. induction c as [|[k n] c IH]; cbn.
  - destruct (Nat.eqb_spec d e); auto.
  - destruct (Nat.eqb_spec k d) as [->|N]; cbn.
    + destruct (Nat.eqb_spec d e); cbn; lia.
    + destruct (Nat.eqb_spec k e) as [->|N']; [|apply IH]. destruct (Nat.eqb_spec d e); [congruence|lia]. Qed.
Lemma total_add d c : list_sum (map snd (counter_add d c)) = S (list_sum (map snd c)).
Proof. unfold list_sum in *. induction c as [|[k n] c IH]; cbn; auto. destruct (Nat.eqb k d); cbn; [lia|]. rewrite IH. lia. Qed.
Lemma pos_add d c : Forall (fun kn => 0 < snd kn) c -> Forall (fun kn => 0 < snd kn) (counter_add d c).
Proof. induction 1 as [|[k n] c P F IH]; cbn; [repeat constructor|]. destruct (Nat.eqb k d); constructor; auto; cbn in *; lia. Qed.
Lemma keys_add d c : NoDup (map fst c) -> NoDup (map fst (counter_add d c)) /\ forall k, In k (map fst (counter_add d c)) <-> k = d \/ In k (map fst c).
Proof. induction c as [|[k n] c IH]; cbn; intros N.
  - split; [repeat constructor; auto|]. intros k. intuition.
  - inversion_clear N as [|? ? Nk Nc]. destruct (IH Nc) as (I1 & I2). destruct (Nat.eqb_spec k d) as [->|Nd]; cbn.
    + split; [constructor; auto|]. intros x. intuition.
    + split; [constructor; auto; rewrite I2; intuition|]. intros x. rewrite I2. intuition. Qed.
Lemma lookup_in k n c : NoDup (map fst c) -> In (k, n) c -> lookup k c = n.
Proof. induction c as [|[k' n'] c IH]; cbn; intros N; [intros []|]. inversion_clear N as [|? ? Nk Nc]. intros [[= -> ->]|I]; [rewrite Nat.eqb_refl; auto|].
  destruct (Nat.eqb_spec k' k) as [->|_]; auto. destruct Nk. apply in_map_iff. exists (k, n). auto. Qed.
Lemma lookup_notin k c : ~ In k (map fst c) -> lookup k c = 0.
Proof. induction c as [|[k' n'] c IH]; cbn; auto. intros N. destruct (Nat.eqb_spec k' k); tauto. Qed.
Lemma most_common_max c : match most_common c with None => c = [] | Some (d, n) => In (d, n) c /\ forall k m, In (k, m) c -> m <= n end.
Proof. induction c as [|[k n] c IH]; cbn [most_common]; auto. destruct (most_common c) as [[d m]|].
  - destruct IH as (I & M). cbn [snd]. destruct (Nat.ltb_spec n m); (split; [cbn; auto|]); intros k' m' [[= <- <-]|X]; try apply M in X; lia.
  - subst c. split; [left; auto|]. intros k' m' [[= <- <-]|[]]; lia. Qed.

(** what the counter holds after counting the dimensions [ds] *)
Definition counts (c : counter) (ds : list nat) : Prop :=
  NoDup (map fst c) /\ (forall d, lookup d c = count_occ Nat.eq_dec ds d) /\ list_sum (map snd c) = length ds /\ Forall (fun kn => 0 < snd kn) c.
Lemma counts_nil : counts [] [].
Proof. split; [constructor|]. split; auto. Qed.
Lemma counts_add c ds d : counts c ds -> counts (counter_add d c) (ds ++ [d]).
Proof. intros (N & L & T & P). split; [apply keys_add; auto|]. split; [|split; [|apply pos_add; auto]].
  - intros e. rewrite lookup_add, L. rewrite count_occ_app. cbn. destruct (Nat.eqb_spec d e), (Nat.eq_dec d e); congruence.
  - rewrite total_add, T, app_length. cbn. lia. Qed.
Lemma counts_empty c : counts c [] -> c = [].
Proof. intros (_ & _ & T & P). destruct P as [|[k n] c P _]; auto. unfold list_sum in T. cbn in *. lia. Qed.
Lemma check_count_spec c ds : counts c ds -> ds <> [] -> exists d b, check_count c = Ok (b, d) /\ (b = true <-> 2 * length ds <= 3 * count_occ Nat.eq_dec ds d) /\
  (forall e, count_occ Nat.eq_dec ds e <= count_occ Nat.eq_dec ds d).
Proof. intros (N & L & T & P) Ne. unfold check_count. pose proof (most_common_max c) as M. destruct (most_common c) as [[d n]|].
  - destruct M as (I & M). assert (E : n = count_occ Nat.eq_dec ds d) by (rewrite <- L; symmetry; apply lookup_in; auto). exists d. eexists. split; [reflexivity|]. rewrite T. split.
    + rewrite Nat.leb_le, E. reflexivity.
    + intros e. rewrite <- E, <- L. destruct (in_dec Nat.eq_dec e (map fst c)) as [Ie|Ie]; [|rewrite lookup_notin by auto; lia].
      apply in_map_iff in Ie as ([k m] & <- & Ie). cbn. rewrite (lookup_in k m c); eauto.
  - subst c. exfalso. cbn in T. destruct ds; [auto|discriminate]. Qed.

(** ** the loop over the positions *)
Section Count.
  Variable local : point -> res nat.
  Lemma votes_occ ps ds d : map local ps = map Ok ds -> votes local d ps = count_occ Nat.eq_dec ds d.
  Proof. revert ds. induction ps as [|p ps IH]; intros [|e ds]; try discriminate; auto. cbn [map]. intros [= E1 E2]. unfold votes in *. cbn [filter]. rewrite E1. cbn.
    destruct (Nat.eq_dec e d) as [->|N]; [rewrite Nat.eqb_refl; cbn; f_equal; auto|]. destruct (Nat.eqb_spec e d); [congruence|auto]. Qed.
  Lemma all_ok ps ds : map local ps = map Ok ds -> Forall (fun p => exists d, local p = Ok d) ps.
  Proof. revert ds. induction ps as [|p ps IH]; intros [|e ds]; try discriminate; auto. cbn [map]. intros [= E1 E2]. constructor; eauto. Qed.

  (** the positions evaluated: a prefix [es] *)
  Lemma count_loop m : forall ps done ds c r, map local done = map Ok ds -> counts c ds ->
    count_dimensions local (Some m) (length done) c ps = Ok r ->
    exists es rest, done ++ ps = es ++ rest /\ Forall (fun p => exists d, local p = Ok d) es /\ es <> [] /\
      match r with
      | Some d => Nat.min m (length (done ++ ps)) <= length es /\ two_thirds local d es
      | None => rest = [] /\ forall d, ~ two_thirds local d es
      end.
  Proof. induction ps as [|p ps IH]; intros done ds c r E C; cbn [count_dimensions];
    assert (L : length done = length ds) by (rewrite <- (map_length local), E, map_length; auto).
    - rewrite app_nil_r. intros H. destruct ds as [|d0 ds']; [apply counts_empty in C; subst c; discriminate|].
      destruct (check_count_spec c _ C) as (d & b & Ec & Eb & Mx); [discriminate|]. rewrite Ec in H. cbn in H. injection H as <-.
      exists done, []. rewrite app_nil_r. split; auto. split; [eapply all_ok; eauto|]. split; [destruct done; [discriminate|discriminate]|].
      destruct b; unfold two_thirds.
      + split; [lia|]. rewrite (votes_occ done _ d E), L. apply Eb. auto.
      + split; auto. intros e X. rewrite (votes_occ done _ e E), L in X. specialize (Mx e). assert (false = true) by (apply Eb; lia). discriminate.
    - destruct (Nat.leb_spec m (length done)) as [Hm|Hm].
      + intros H. destruct ds as [|d0 ds']; [apply counts_empty in C; subst c; discriminate|].
        destruct (check_count_spec c _ C) as (d & b & Ec & Eb & Mx); [discriminate|]. rewrite Ec in H. cbn [bind] in H. destruct b.
        * injection H as <-. exists done, (p :: ps). split; auto. split; [eapply all_ok; eauto|]. split; [destruct done; [discriminate|discriminate]|].
          split; [lia|]. unfold two_thirds. rewrite (votes_occ done _ d E), L. apply Eb. auto.
        * destruct (local p) as [e|x] eqn:Lp; [|discriminate]. cbn [bind] in H. replace (done ++ p :: ps) with ((done ++ [p]) ++ ps) by (rewrite <- app_assoc; auto).
          apply (IH (done ++ [p]) ((d0 :: ds') ++ [e]) (counter_add e c) r).
          -- rewrite !map_app, E. cbn. rewrite Lp. auto.
          -- apply counts_add; auto.
          -- rewrite app_length, Nat.add_1_r. auto.
      + cbn [bind]. intros H. destruct (local p) as [e|x] eqn:Lp; [|discriminate]. cbn [bind] in H. replace (done ++ p :: ps) with ((done ++ [p]) ++ ps) by (rewrite <- app_assoc; auto).
        apply (IH (done ++ [p]) (ds ++ [e]) (counter_add e c) r).
        * rewrite !map_app, E. cbn. rewrite Lp. auto.
        * apply counts_add; auto.
        * rewrite app_length, Nat.add_1_r. auto. Qed.

  (** no exception of its own *)
  Lemma count_loop_ok m : 0 < m -> forall ps done ds c, map local done = map Ok ds -> counts c ds -> done ++ ps <> [] ->
    match count_dimensions local (Some m) (length done) c ps with
    | Ok _ => True
    | Err e => exists p, In p ps /\ local p = Err e
    end.
  Proof. intros Hm. induction ps as [|p ps IH]; intros done ds c E C Ne; cbn [count_dimensions];
    assert (L : length done = length ds) by (rewrite <- (map_length local), E, map_length; auto).
    - rewrite app_nil_r in Ne. destruct (check_count_spec c _ C) as (d & b & Ec & _); [intros ->; destruct done; auto; discriminate|]. rewrite Ec. cbn. auto.
    - assert (Rec : match (let! d := local p in count_dimensions local (Some m) (S (length done)) (counter_add d c) ps) with Ok _ => True | Err e => exists q, In q (p :: ps) /\ local q = Err e end).
      { destruct (local p) as [e|x] eqn:Lp; cbn [bind]; [|exists p; split; [left|]; auto].
        specialize (IH (done ++ [p]) (ds ++ [e]) (counter_add e c)). rewrite app_length, Nat.add_1_r in IH.
        destruct (count_dimensions local (Some m) (S (length done)) (counter_add e c) ps); auto. destruct IH as (q & Iq & Eq).
        - rewrite !map_app, E. cbn. rewrite Lp. auto.
        - apply counts_add; auto.
        - destruct done; discriminate.
        - exists q. split; auto. right; auto. }
      destruct (Nat.leb_spec m (length done)).
      + destruct (check_count_spec c _ C) as (d & b & Ec & _); [intros ->; cbn in *; lia|]. rewrite Ec. cbn [bind]. destruct b; auto.
      + cbn [bind]. auto. Qed.
End Count.

Lemma two_thirds_unique local d e ps : ps <> [] -> two_thirds local d ps -> two_thirds local e ps -> d = e.
Proof. unfold two_thirds. intros Ne D E. destruct (Nat.eq_dec d e); auto. exfalso. assert (S : votes local d ps + votes local e ps <= length ps).
  { clear - n. unfold votes. induction ps as [|p ps IH]; cbn; auto. destruct (local p) as [x|]; cbn; [|lia]. destruct (Nat.eqb_spec x d), (Nat.eqb_spec x e); cbn; try congruence; lia. }
  destruct ps; [congruence|]. cbn in *. lia. Qed.
