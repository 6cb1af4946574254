(** Facts about the local dimension. *)
From Verif Require Import Base BaseFacts CoordSys SpecGeom CoordSysFacts GeomCombined CoordSysR Graph SpecGraph GraphFacts Dimension SpecDim DimensionFacts DrawFacts VolumeFacts.
From Coq Require Import Reals Psatz.
From Coq Require Import Lra.
Open Scope list_scope.
Open Scope R_scope.

Lemma dot_len_sq v : dot v v = len_sq v.
Proof. rewrite len_sq_qsum. unfold dot, qsum. induction v as [|x v IH]; cbn in *; auto. rewrite IH. reflexivity. Qed.
Lemma dot_zero v : Forall (fun x => x = 0%Qc) v -> dot v v = 0%Qc.
Proof. unfold dot, qsum. induction 1 as [|x v -> _ IH]; cbn in *; auto. rewrite IH. reflexivity. Qed.

Section Local.
  Context {W : Type}.
  Variables (cs : coordsys) (g : graph point W) (fs : R).
  Hypothesis Wf : wf_graph g.
  Hypothesis Fs : 0 <= fs.

  (** all volumes zero: not of that dimension *)
  Lemma has_dimension_zero r pos dim me b used : good_rng r (neighbors g pos) dim -> has_dimension r cs g fs pos dim me = Ok (b, used) ->
    (forall vs, length vs = dim -> (forall v, In v vs -> exists q, has_edge g q pos /\ connecting_vector cs q pos = Ok v) -> det dim (gram vs) = 0%Qc) -> b = false.
  Proof. intros Gr H Z. apply has_dimension_spec in H as [(_ & -> & _)|(_ & e & ts & ends & rest & vols & E & D & -> & F & -> & _)]; auto. apply avg_below.
    pose proof (limit_nonneg fs dim e Fs E) as Lp.
    assert (T : forall t, In t used -> length t = dim /\ forall x, In x t -> has_edge g x pos) by (intros t I; eapply tuple_neighbours; eauto; apply in_app_iff; auto).
    clear D Gr. induction F as [|t v used' vols' Fv F IH]; constructor; [|apply IH; intros; apply T; right; auto].
    assert (v = 0); [|lra]. destruct (T t (or_introl eq_refl)) as (Lt & Et). eapply volume_zero; eauto. intros vs S. pose proof S as S'.
    apply (sequence_forall t _ (fun v => exists q, has_edge g q pos /\ connecting_vector cs q pos = Ok v)) in S as (F' & L'); [|eauto].
    rewrite L', Lt. apply Z; [congruence|]. apply Forall_forall. auto. Qed.

  Lemma line_not_2 u r pos me b used : all_connections cs g (multiple_of u) -> good_rng r (neighbors g pos) 2 -> has_dimension r cs g fs pos 2 me = Ok (b, used) -> b = false.
  Proof. intros A Gr H. eapply has_dimension_zero; eauto. intros vs L F. apply (det2_line u); auto. apply Forall_forall. intros v I. destruct (F v I) as (q & E & C). eapply A; eauto. Qed.
  Lemma plane_not_3 u1 u2 r pos me b used : length u1 = length u2 -> all_connections cs g (in_plane u1 u2) -> good_rng r (neighbors g pos) 3 -> has_dimension r cs g fs pos 3 me = Ok (b, used) -> b = false.
  Proof. intros Lu A Gr H. eapply has_dimension_zero; eauto. intros vs L F. apply (det3_plane u1 u2); auto. apply Forall_forall. intros v I. destruct (F v I) as (q & E & C). eapply A; eauto. Qed.
  Lemma zero_not_1 r pos me b used : all_connections cs g (Forall (fun x => x = 0%Qc)) -> good_rng r (neighbors g pos) 1 -> has_dimension r cs g fs pos 1 me = Ok (b, used) -> b = false.
  Proof. intros A Gr H. eapply has_dimension_zero; eauto. intros vs L F. destruct vs as [|v [|]]; try discriminate. rewrite det1. apply dot_zero. destruct (F v (or_introl eq_refl)) as (q & E & C). eapply A; eauto. Qed.

  Hypothesis B : wf_box cs.
  Hypothesis P : Forall (is_pos cs) (g_nodes g).
  Lemma edge_pos p q : has_edge g p q -> is_pos cs p /\ is_pos cs q.
  Proof. intros E. destruct (wf_ends Wf E). rewrite Forall_forall in P. auto. Qed.
  Lemma volume_single pos q : has_edge g q pos -> (0 < length pos)%nat -> get_volume cs pos [q] = Ok (distance cs q pos).
  Proof. intros E L. destruct (edge_pos _ _ E) as (Pq & Pp). destruct (connecting_vector_spec cs q pos B Pq Pp) as (v & Ev & _ & _ & Lv & _).
    unfold get_volume. cbn [map sequence]. rewrite Ev. cbn [bind length]. destruct (Nat.ltb_spec (length pos) 1); [lia|]. rewrite det1, dot_len_sq, Lv. reflexivity. Qed.
  Lemma volume_ok pos t : is_pos cs pos -> (forall x, In x t -> has_edge g x pos) -> exists v, get_volume cs pos t = Ok v.
  Proof. intros Pp E. unfold get_volume. assert (S : exists vs, sequence (map (fun nbr => connecting_vector cs nbr pos) t) = Ok vs).
    { induction t as [|x t IH]; cbn; [eauto|]. destruct (connecting_vector_spec cs x pos B (proj1 (edge_pos _ _ (E x (or_introl eq_refl)))) Pp) as (v & Ev & _). rewrite Ev.
      destruct IH as (vs & ->); [intros; apply E; right; auto|]. cbn. eauto. }
    destruct S as (vs & ->). cbn [bind]. eauto. Qed.

  (** neighbours all further than a quarter of the feature size: at least dimension 1 *)
  Lemma far_1 r pos me b used : good_rng r (neighbors g pos) 1 -> (0 < length pos)%nat -> neighbors g pos <> [] ->
    (forall q, has_edge g q pos -> fs / 4 < distance cs q pos) -> has_dimension r cs g fs pos 1 me = Ok (b, used) -> b = true.
  Proof. intros Gr Lp Ne Fa H. apply has_dimension_spec in H as [(X & _)|(_ & e & ts & ends & rest & vols & E & D & Ets & F & -> & End)]; [lia|]. cbn in E. injection E as <-.
    destruct (draw_spec (neighbors g pos) 1 (nodup_neighbors Wf pos) r _ ts ends Gr D) as (_ & Fc & All).
    assert (T : forall t, In t ts -> length t = 1%nat /\ forall x, In x t -> has_edge g x pos) by (intros t I; eapply tuple_neighbours; eauto).
    apply avg_above.
    - assert (T' : forall t, In t used -> length t = 1%nat /\ forall x, In x t -> has_edge g x pos) by (intros t I; apply T; subst ts; apply in_app_iff; auto).
      clear - F T' Lp Fa B P Wf. induction F as [|t v used' vols' Fv F IH]; constructor; [|apply IH; intros; apply T'; right; auto].
      destruct (T' t (or_introl eq_refl)) as (L1 & E1). destruct t as [|q [|]]; try discriminate. specialize (E1 q (or_introl eq_refl)). rewrite (volume_single pos q E1 Lp) in Fv. injection Fv as <-.
      specialize (Fa q E1). lra.
    - destruct vols as [|v vols]; [|discriminate]. inversion F; subst used. destruct End as [(-> & ->)|(_ & X & _)]; [|cbn in X; lia]. exfalso.
      destruct (neighbors g pos) as [|q l] eqn:En; [congruence|]. assert (C : combination (q :: l) 1 [q]).
      { split; [|repeat constructor]. split; [repeat constructor; auto|]. split; auto. intros x [<-|[]]. left; auto. }
      specialize (All eq_refl [q] C). rewrite Ets in All. destruct All. Qed.

  (** ** get_dimension *)
  Lemma get_dimension_from_spec rs pos me : forall n dim d, (1 <= dim)%nat -> get_dimension_from rs cs g fs pos me n dim = Ok d ->
    (dim - 1 <= d <= dim - 1 + n)%nat /\
    (forall k, (dim <= k <= d)%nat -> exists used, has_dimension (rs k) cs g fs pos k me = Ok (true, used)) /\
    ((d < dim - 1 + n)%nat -> exists used, has_dimension (rs (S d)) cs g fs pos (S d) me = Ok (false, used)).
  Proof. induction n as [|n IH]; intros dim d Hd; cbn [get_dimension_from].
    - intros [= <-]. split; [lia|]. split; [intros; lia|lia].
    - destruct (has_dimension (rs dim) cs g fs pos dim me) as [[b used]|] eqn:Hh; [|discriminate]. cbn [bind]. destruct b.
      + intros H. apply IH in H as (I1 & I2 & I3); [|lia]. split; [lia|]. split; [|intros; apply I3; lia]. intros k Hk. destruct (Nat.eq_dec k dim) as [->|]; [eauto|]. apply I2. lia.
      + intros [= <-]. split; [lia|]. split; [intros; lia|]. intros _. replace (S (dim - 1)) with dim by lia. eauto. Qed.
  Lemma get_dimension_range rs pos md me d : get_dimension rs cs g fs pos md me = Ok d -> (d <= md)%nat /\ (d <= length pos)%nat /\ (d <= 3)%nat.
  Proof. intros H. apply get_dimension_from_spec in H as (I1 & I2 & _); [|lia]. split; [lia|]. destruct d as [|d]; [lia|].
    destruct (I2 (S d)) as (used & H); [lia|]. apply has_dimension_spec in H as [(_ & X & _)|(L & e & _ & _ & _ & _ & E & _)]; [discriminate|]. split; auto.
    destruct d as [|[|[|]]]; try lia. discriminate. Qed.

  (** ** exceptions *)
  Lemma evaluate_tuples_ok pos m limit ends : is_pos cs pos -> forall ts seen vols, (forall t, In t ts -> forall x, In x t -> has_edge g x pos) ->
    match evaluate_tuples cs pos m limit seen vols ts ends with Ok _ => True | Err x => x = OutOfFuel /\ ends = false end.
  Proof. intros Pp. induction ts as [|t ts IH]; intros seen vols T; cbn [evaluate_tuples]; [destruct ends; auto|].
    destruct ((m <=? length vols)%nat && (1 <? length vols)%nat && rgt _ _); auto.
    destruct (volume_ok pos t Pp (T t (or_introl eq_refl))) as (v & ->). cbn [bind]. apply IH. intros; eapply T; eauto. right; auto. Qed.
  (** the environment supplies enough random draws *)
  Definition enough_draws (r : rng) pos dim (me : option nat) : Prop :=
    snd (draw_neighbour_tuple r (neighbors g pos) dim (match me with None => length (neighbors g pos) | Some m => m end)) = true.
  Lemma has_dimension_ok r pos dim me : is_pos cs pos -> good_rng r (neighbors g pos) dim -> (1 <= dim <= 3)%nat -> enough_draws r pos dim me -> exists b used, has_dimension r cs g fs pos dim me = Ok (b, used).
  Proof. intros Pp Gr Hd En. unfold has_dimension. destruct (length pos <? dim)%nat; [eauto|]. assert (X : exists e, exact_value dim = Some e) by (destruct dim as [|[|[|[|]]]]; try lia; cbn; eauto). destruct X as (e & ->).
    unfold enough_draws in En. destruct (draw_neighbour_tuple r (neighbors g pos) dim _) as [ts ends] eqn:D. cbn in En. subst ends.
    assert (T : forall t, In t ts -> forall x, In x t -> has_edge g x pos) by (intros t I; eapply tuple_neighbours; eauto).
    pose proof (evaluate_tuples_ok pos (match me with None => length (neighbors g pos) | Some m => m end) (fs ^ dim * e / 2) true Pp ts [] [] T) as K.
    destruct (evaluate_tuples _ _ _ _ _ _ _ _) as [[b used]|x]; [eauto|]. destruct K; discriminate. Qed.
  Lemma get_dimension_ok rs pos md me : is_pos cs pos -> (md <= 3)%nat -> (forall k, good_rng (rs k) (neighbors g pos) k) -> (forall k, enough_draws (rs k) pos k me) -> exists d, get_dimension rs cs g fs pos md me = Ok d.
  Proof. intros Pp Hm Gr En. unfold get_dimension. assert (X : forall n dim, (1 <= dim)%nat -> (dim + n <= 4)%nat -> exists d, get_dimension_from rs cs g fs pos me n dim = Ok d); [|apply X; lia].
    induction n as [|n IH]; intros dim H1 H2; cbn [get_dimension_from]; [eauto|]. destruct (has_dimension_ok (rs dim) pos dim me Pp (Gr dim)) as (b & used & ->); [lia|apply En|]. cbn [bind]. destruct b; [|eauto].
    apply IH; lia. Qed.
End Local.
