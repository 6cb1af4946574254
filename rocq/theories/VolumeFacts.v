(** Facts about volumes and local dimensions. *)
From Verif Require Import Base BaseFacts CoordSys SpecGeom CoordSysFacts GeomCombined CoordSysR Graph SpecGraph GraphFacts Dimension SpecDim DimensionFacts DrawFacts.
From Coq Require Import Reals Psatz.
From Coq Require Import Lra.
Open Scope list_scope.

(** ** Gram determinants *)
Section Gram.
  Open Scope Qc_scope.
  Lemma det1 v : det 1 (gram [v]) = dot v v.
  Proof. cbn. ring. Qed.
  Lemma det2 v w : det 2 (gram [v; w]) = dot v v * dot w w - dot v w * dot w v.
  Proof. cbn. ring. Qed.
  Lemma det3 u v w : det 3 (gram [u; v; w]) =
    dot u u * (dot v v * dot w w - dot v w * dot w v) - dot u v * (dot v u * dot w w - dot v w * dot w u) + dot u w * (dot v u * dot w v - dot v v * dot w u).
  Proof. cbn. ring. Qed.
  Lemma dot_nil_r v : dot v [] = 0. Proof. destruct v; reflexivity. Qed.
  Lemma dot_multiple u a b : dot (map (Qcmult a) u) (map (Qcmult b) u) = a * b * dot u u.
  Proof. unfold dot, qsum. induction u as [|x u IH]; cbn in *; [ring|]. rewrite IH. ring. Qed.
  Lemma dot_plane u1 u2 a b c d : length u1 = length u2 ->
    dot (vadd (map (Qcmult a) u1) (map (Qcmult b) u2)) (vadd (map (Qcmult c) u1) (map (Qcmult d) u2)) = a * c * dot u1 u1 + (a * d + b * c) * dot u1 u2 + b * d * dot u2 u2.
  Proof. revert u2. unfold dot, vadd, qsum. induction u1 as [|x u1 IH]; intros [|y u2] L; cbn in *; try discriminate; [ring|]. rewrite IH by lia. ring. Qed.
  Lemma det2_line u vs : Forall (multiple_of u) vs -> length vs = 2%nat -> det 2 (gram vs) = 0.
  Proof. intros F L. destruct vs as [|v [|w [|]]]; try discriminate. inversion_clear F as [|? ? (a & ->) F']. inversion_clear F' as [|? ? (b & ->) _].
    rewrite det2, !dot_multiple. ring. Qed.
  Lemma det3_plane u1 u2 vs : length u1 = length u2 -> Forall (in_plane u1 u2) vs -> length vs = 3%nat -> det 3 (gram vs) = 0.
  Proof. intros Lu F L. destruct vs as [|v1 [|v2 [|v3 [|]]]]; try discriminate. inversion_clear F as [|? ? (a & b & ->) F1]. inversion_clear F1 as [|? ? (c & d & ->) F2]. inversion_clear F2 as [|? ? (e & f & ->) _].
    rewrite det3, !dot_plane by auto. ring. Qed.
  Lemma line_in_plane u v : multiple_of u v -> in_plane u u v.
  Proof. intros (a & ->). exists a, 0. unfold vadd. induction u as [|x u IH]; cbn; auto. rewrite <- IH. f_equal. ring. Qed.
End Gram.

Open Scope R_scope.
(** ** averages *)
Lemma rsum_bound (c : R) l : Forall (fun x => c < x) l -> l <> [] -> INR (length l) * c < rsum l.
Proof. induction 1 as [|x l Hx F IH]; [congruence|]. intros _. change (rsum (x :: l)) with (x + rsum l). change (length (x :: l)) with (S (length l)). rewrite S_INR.
  destruct l as [|y l]; [cbn; lra|]. assert (y :: l <> []) by discriminate. specialize (IH H). lra. Qed.
Lemma rsum_bound_le (c : R) l : Forall (fun x => x <= c) l -> rsum l <= INR (length l) * c.
Proof. induction 1 as [|x l Hx F IH]; [cbn; lra|]. change (rsum (x :: l)) with (x + rsum l). change (length (x :: l)) with (S (length l)). rewrite S_INR. lra. Qed.
Lemma avg_above (c : R) l : Forall (fun x => c < x) l -> l <> [] -> avg_gt l c = true.
Proof. intros F N. unfold avg_gt. destruct l as [|x l]; [congruence|]. set (m := x :: l) in *. unfold rgt. destruct (Rlt_dec c (avg m)) as [|H]; auto. exfalso. apply H. unfold avg.
  pose proof (rsum_bound c m F N) as B. assert (P : 0 < INR (length m)) by (apply lt_0_INR; unfold m; cbn; lia). apply Rmult_lt_reg_l with (INR (length m)); auto.
  replace (INR (length m) * (rsum m / INR (length m))) with (rsum m) by (field; lra). auto. Qed.
Lemma avg_below (c : R) l : Forall (fun x => x <= c) l -> avg_gt l c = false.
Proof. intros F. unfold avg_gt. destruct l as [|x l]; auto. set (m := x :: l) in *. unfold rgt. destruct (Rlt_dec c (avg m)) as [H|]; auto. exfalso. unfold avg in H.
  pose proof (rsum_bound_le c m F) as B. assert (P : 0 < INR (length m)) by (apply lt_0_INR; unfold m; cbn; lia). apply (Rmult_lt_compat_l (INR (length m))) in H; auto.
  replace (INR (length m) * (rsum m / INR (length m))) with (rsum m) in H by (field; lra). lra. Qed.

(** ** limits *)
Lemma exact_pos dim e : exact_value dim = Some e -> 0 < e.
Proof. pose proof PI_RGT_0. destruct dim as [|[|[|[|]]]]; cbn; intros [= <-]; try lra. apply Rmult_lt_0_compat; [lra|]. apply Rinv_0_lt_compat. lra. Qed.
Lemma limit_nonneg fs dim e : 0 <= fs -> exact_value dim = Some e -> 0 <= fs ^ dim * e / 2.
Proof. intros F E. apply exact_pos in E. assert (0 <= fs ^ dim) by (apply pow_le; auto). nra. Qed.

(** ** has_dimension *)
Section Has.
  Context {W : Type}.
  Variables (cs : coordsys) (g : graph point W) (fs : R).

  (** the volumes of the combinations of neighbours decide *)
  Lemma has_dimension_spec r pos dim me b used : has_dimension r cs g fs pos dim me = Ok (b, used) ->
    ((length pos < dim)%nat /\ b = false /\ used = []) \/
    ((dim <= length pos)%nat /\ exists e ts ends rest vols, exact_value dim = Some e /\
       draw_neighbour_tuple r (neighbors g pos) dim (match me with None => length (neighbors g pos) | Some m => m end) = (ts, ends) /\
       ts = used ++ rest /\ Forall2 (fun t v => get_volume cs pos t = Ok v) used vols /\ b = avg_gt vols (fs ^ dim * e / 2) /\
       ((rest = [] /\ ends = true) \/
        ((match me with None => length (neighbors g pos) | Some m => m end <= length used)%nat /\ (1 < length used)%nat /\
         sqrt (var vols / INR (length used - 1)) < Rabs (fs ^ dim * e / 2 - avg vols) / 2))).
  Proof. unfold has_dimension. destruct (Nat.ltb_spec (length pos) dim) as [L|L]; [intros [= <- <-]; auto|]. right. split; auto.
    destruct (exact_value dim) as [e|]; [|discriminate]. destruct (draw_neighbour_tuple r (neighbors g pos) dim _) as [ts ends] eqn:D.
    apply evaluate_tuples_spec in H as (rest & vols & E & F & B & X); [|constructor]. cbn in E. exists e, ts, ends, rest, vols. auto 10. Qed.
  Lemma has_dimension_go r pos dim me b used e vols : has_dimension r cs g fs pos dim me = Ok (b, used) -> exact_value dim = Some e -> Forall2 (fun t v => get_volume cs pos t = Ok v) used vols ->
    forall j, (match me with None => length (neighbors g pos) | Some m => m end <= j)%nat -> (1 < j < length used)%nat -> Rabs (fs ^ dim * e / 2 - avg (firstn j vols)) / 2 <= sqrt (var (firstn j vols) / INR (j - 1)).
  Proof. unfold has_dimension. destruct (Nat.ltb_spec (length pos) dim) as [L|L]; [intros [= <- <-] _ _ j _ Hj; cbn in Hj; lia|]. intros H E F j Hm Hj. rewrite E in H. destruct (draw_neighbour_tuple r (neighbors g pos) dim _) as [ts ends] eqn:D.
    eapply evaluate_tuples_go; [constructor|exact H|exact F| | |]; auto; cbn [length]; lia. Qed.

  Lemma volume_zero pos t v : get_volume cs pos t = Ok v ->
    (forall vs, sequence (map (fun nbr => connecting_vector cs nbr pos) t) = Ok vs -> det (length vs) (gram vs) = 0%Qc) -> v = 0.
  Proof. unfold get_volume. intros H Z. destruct (sequence (map (fun nbr => connecting_vector cs nbr pos) t)) as [vs|]; [|discriminate]. cbn [bind] in H. injection H as <-.
    destruct (length pos <? length t)%nat; auto. rewrite (Z vs eq_refl), Qc2R_0. apply sqrt_0. Qed.
  Lemma sequence_forall (t : tuple) (f : point -> res point) (P : point -> Prop) vs : sequence (map f t) = Ok vs -> (forall x v, In x t -> f x = Ok v -> P v) -> Forall P vs /\ length vs = length t.
  Proof. revert vs. induction t as [|x t IH]; cbn; intros vs H Q; [injection H as <-; auto|]. destruct (f x) as [v|] eqn:Fx; [|discriminate]. destruct (sequence (map f t)) as [vs'|]; [|discriminate]. cbn in H. injection H as <-.
    destruct (IH vs' eq_refl) as (I1 & I2); [intros; eapply Q; eauto|]. split; [constructor; auto; eapply Q; eauto|cbn; auto]. Qed.

  Lemma tuple_neighbours r pos dim m ts ends t : wf_graph g -> good_rng r (neighbors g pos) dim -> draw_neighbour_tuple r (neighbors g pos) dim m = (ts, ends) ->
    In t ts -> length t = dim /\ forall x, In x t -> has_edge g x pos.
  Proof. intros Wf Gr D I. destruct (draw_spec (neighbors g pos) dim (nodup_neighbors Wf pos) r m ts ends Gr D) as (_ & F & _). rewrite Forall_forall in F. destruct (F t I) as ((_ & Inc & L) & _). split; auto.
    intros x Ix. apply has_edge_sym, in_neighbors. auto. Qed.
End Has.
