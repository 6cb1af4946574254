(** Round trips of identification results. *)
From Coq Require Import String.
From Verif Require Import Base BaseFacts CoordSys SpecGeom Values QueueFacts Hdf5 SpecHdf5 Hdf5Facts Graph SpecGraph GraphFacts Dimension Shape ShapeFacts Identify Hdf5Ident SpecHdf5Ident.
Open Scope list_scope.

(** the members of a list, in order *)
Lemma list_same {A} (f : A -> tree) l t : same_file (enc_list f l) t -> exists ts, Forall2 (fun a u => same_file (f a) u) l ts /\
  forall B (g : tree -> res B), dec_list g t = sequence (map g ts).
Proof. intros S. unfold enc_list in S. apply same_group_inv in S as (ms' & ms'' & -> & F & P).
  set (ks := map KNum (seq 0 (List.length l))) in *.
  assert (Lk : List.length ks = List.length (map f l)) by (unfold ks; rewrite !map_length, seq_length; auto).
  assert (Lm : List.length ms' = List.length l).
  { rewrite <- (f2_length F), combine_length_eq by auto. unfold ks. rewrite map_length, seq_length. auto. }
  assert (K : map fst ms' = ks) by (rewrite <- (keys_same _ _ F); apply map_fst_combine; auto).
  set (leb := fun a b : key * tree => (key_num (fst a) <=? key_num (fst b))%nat).
  assert (E : sort_by leb ms'' = ms').
  { symmetry. apply (sorted_seq_unique (fun kt => key_num (fst kt)) ms' _ 0).
    - rewrite <- (map_map fst key_num), K. unfold ks. rewrite map_map. cbn. rewrite map_id. rewrite Lm. auto.
    - rewrite (sort_by_perm leb ms''). auto.
    - apply QueueFacts.sort_sorted; unfold leb; intros; rewrite ?Nat.leb_le in *; lia. }
  exists (map snd ms'). split.
  - clear -F Lk. clearbody ks. revert l ms' Lk F. generalize ks as ks'. clear ks. induction ks' as [|k ks' IH]; intros [|a l] ms' L F; cbn in *; try discriminate.
    + inversion F; constructor.
    + inversion F as [|? ? ? ? [_ H1] H2]; subst. constructor; auto.
  - intros B g. unfold dec_list. fold leb. rewrite E, map_map. reflexivity. Qed.

Lemma loads_list_like {A B} (f : A -> tree) (g : tree -> res B) (P : A -> B -> Prop) l :
  Forall (fun a => loads_like g (f a) (P a)) l -> loads_like (dec_list g) (enc_list f l) (Forall2 P l).
Proof. intros H t S. apply list_same in S as (ts & F & E). rewrite E. clear E. induction F as [|a u l ts Sa F IH]; cbn; [eauto|].
  inversion H as [|? ? Ha Hl]; subst. destruct (Ha u Sa) as (v & -> & Pv). cbn. destruct (IH Hl) as (vs & -> & Pvs). cbn. eauto. Qed.
Lemma fails_list {A B} (f : A -> tree) (g : tree -> res B) e l : l <> [] ->
  Forall (fun a => fails_with g (f a) e) l -> fails_with (dec_list g) (enc_list f l) e.
Proof. intros N H t S. apply list_same in S as (ts & F & E). rewrite E. destruct F as [|a u l ts Sa F]; [congruence|]. cbn. inversion H as [|? ? Ha Hl]; subst. rewrite (Ha u Sa). reflexivity. Qed.

Lemma f2_refl {A B} (R : A -> B -> Prop) (f : A -> B) l : (forall a, R a (f a)) -> Forall2 R l (map f l).
Proof. intros H. induction l; cbn; constructor; auto. Qed.

Lemma loads_int_obj n : loads_as (dec_obj dec_nat) (enc_int_obj n) n.
Proof. intros t S. unfold dec_obj. unfold enc_int_obj in S. rewrite (tag_same _ _ _ S). cbn [bind String.eqb Ascii.eqb Bool.eqb]. cbn. fld S "value"%string. apply loads_nat; auto. Qed.
Lemma loads_num_obj q : loads_as (dec_obj dec_num) (enc_num_obj q) q.
Proof. intros t S. unfold dec_obj. unfold enc_num_obj in S. rewrite (tag_same _ _ _ S). cbn. fld S "value"%string. apply loads_num; auto. Qed.
Lemma loads_opt_int d : loads_as dec_opt_int (enc_opt_int d) d.
Proof. intros t S. unfold dec_opt_int. destruct d as [n|]; cbn [enc_opt_int] in S.
  - pose proof S as S'. unfold enc_int_obj in S'. rewrite (tag_same _ _ _ S'). cbn [bind]. cbn [String.eqb]. cbn. rewrite (loads_int_obj _ _ S). reflexivity.
  - unfold enc_none in S. rewrite (tag_same _ _ _ S). reflexivity. Qed.
Lemma loads_item kn : loads_as dec_item (enc_item kn) kn.
Proof. intros t S. unfold dec_item. unfold enc_item in S.
  assert (L : loads_as (dec_list (dec_obj dec_nat)) (enc_list enc_int_obj [fst kn; snd kn]) [fst kn; snd kn]) by (apply loads_list; repeat constructor; apply loads_int_obj).
  rewrite (L _ S). cbn. destruct kn; reflexivity. Qed.
Lemma loads_counter c : loads_as dec_counter (enc_counter c) c.
Proof. intros t S. unfold dec_counter. unfold enc_counter in S. fld S "items"%string.
  assert (L : loads_as (dec_list dec_item) (enc_list enc_item c) c).
  { apply loads_list. clear. induction c; constructor; auto. apply loads_item. }
  apply L; auto. Qed.
Lemma loads_positions l : loads_as dec_positions (enc_positions l) l.
Proof. apply loads_arr, dec_enc_point. Qed.
Lemma dec_enc_edge e : dec_edge (enc_edge e) = Ok e.
Proof. unfold dec_edge, enc_edge, enc_positions, dec_positions. rewrite dec_enc_arr by apply dec_enc_point. destruct e; reflexivity. Qed.

(** reading back nodes and edges *)
Lemma add_nodes_list : forall ns (g : graph point unit), NoDup ns -> (forall x, In x ns -> ~ In x (g_nodes g)) ->
  fold_left (fun g p => add_node g p) ns g = mk_graph (g_nodes g ++ ns) (g_edges g).
Proof. induction ns as [|x ns IH]; intros g N D; cbn [fold_left].
  - rewrite app_nil_r. destruct g; reflexivity.
  - inversion N as [|? ? Nx N']; subst. rewrite IH; auto.
    + cbn [add_node g_nodes g_edges]. unfold set_add. rewrite (proj2 (mem_false x (g_nodes g))) by (apply D; left; auto). rewrite <- app_assoc. reflexivity.
    + intros y Hy. rewrite add_node_nodes. intros [-> |X]; [auto|]. apply (D y); [right; auto|auto]. Qed.
Lemma add_edge_nodes_same (g : graph point unit) u v w : In u (g_nodes g) -> In v (g_nodes g) -> g_nodes (add_edge g u v w) = g_nodes g.
Proof. intros U V. unfold add_edge. assert (E : g_nodes (add_node (add_node g u) v) = g_nodes g).
  { cbn. unfold set_add. rewrite (proj2 (mem_spec u (g_nodes g)) U). rewrite (proj2 (mem_spec v (g_nodes g)) V). reflexivity. }
  destruct (adj g u v); cbn [g_nodes]; exact E. Qed.
Lemma add_edges_list : forall es (g : graph point unit), wf_graph g -> (forall e, In e es -> In (fst e) (g_nodes g) /\ In (snd e) (g_nodes g)) ->
  let g' := fold_left (fun g e => add_edge g (fst e) (snd e) tt) es g in
  g_nodes g' = g_nodes g /\ wf_graph g' /\ forall u v, has_edge g' u v <-> has_edge g u v \/ In (u, v) es \/ In (v, u) es.
Proof. induction es as [|[a b] es IH]; intros g W E; cbn [fold_left].
  - split; auto. split; auto. intros u v. cbn. tauto.
  - destruct (E (a, b) (or_introl eq_refl)) as (Ia & Ib). cbn [fst snd] in *. pose proof (add_edge_nodes_same g a b tt Ia Ib) as En.
    destruct (IH (add_edge g a b tt)) as (H1 & H2 & H3).
    + apply wf_add_edge; auto.
    + intros e Ie. rewrite En. apply E. right; auto.
    + split; [congruence|]. split; auto. intros u v. rewrite H3, add_edge_edges. cbn [In]. split.
      * intros [[[-> ->]|[[-> ->]|X]]|[X|X]]; auto 6.
      * intros [X|[[X|X]|[X|X]]]; auto; injection X as -> ->; auto. Qed.

Section Line.
  Variable elist : graph point unit -> list (point * point).
  Hypothesis L : lists_edges elist.

  Lemma loads_graph tag g : wf_graph g ->
    loads_like dec_graph (TGroup tag ((KName "nodes", enc_positions (g_nodes g)) :: match g_edges g with [] => [] | _ => [(KName "edges", enc_arr enc_edge (elist g))] end))
      (fun g' => same_graph g g' /\ wf_graph g').
  Proof. intros W t S. unfold dec_graph. unfold same_graph.
    assert (Ea : fold_left (fun g p => add_node g p) (g_nodes g) (@empty_graph point unit) = mk_graph (g_nodes g) []).
    { rewrite add_nodes_list; [reflexivity|apply W|intros x _ []]. }
    assert (W0 : wf_graph (mk_graph (g_nodes g) ([] : list (point * point * unit)))) by (constructor; cbn; [apply W|intros ? ? ? []|constructor]).
    destruct (g_edges g) as [|e es] eqn:Ee.
    - fld S "nodes"%string. rewrite (loads_positions _ _ S0). cbn [bind]. rewrite Ea. unfold has_field.
      rewrite (fun H => field_none _ "edges"%string _ _ H S); [|cbn; intuition discriminate].
      eexists. split; [reflexivity|]. split; auto. split; auto. intros a b. unfold has_edge. rewrite Ee. cbn. tauto.
    - fld S "nodes"%string. rewrite (loads_positions _ _ S0). cbn [bind]. rewrite Ea. unfold has_field. fld S "edges"%string.
      rewrite (loads_arr _ _ _ dec_enc_edge _ S1). cbn [bind]. eexists. split; [reflexivity|].
      destruct (add_edges_list (elist g) (mk_graph (g_nodes g) []) W0) as (H1 & H2 & H3).
      { intros [a b] Iab. cbn. apply (wf_ends (g := g)); auto. apply L. auto. }
      split; auto. split; auto. intros a b. rewrite H3, (L g a b). split; [|tauto]. intros [(w & [[]|[]])|X]; auto. Qed.

  Lemma loads_shape s : proper_shape s -> loads_like dec_shape (enc_shape elist s) (same_opt_shape s).
  Proof. intros W t S. unfold dec_shape. destruct s as [[p|g dc]|]; cbn [enc_shape] in S.
    - unfold enc_point_shape in S. rewrite (tag_same _ _ _ S). cbn. fld S "position"%string. rewrite (loads_point _ _ S0). cbn. eexists. split; [reflexivity|]. reflexivity.
    - unfold enc_line in S. rewrite (tag_same _ _ _ S). cbn. unfold dec_line. fld S "graph"%string.
      destruct (loads_graph _ _ W _ S0) as (g' & -> & Sg & Wg). cbn [bind]. fld S "degree_count"%string. rewrite (loads_counter _ _ S1). cbn. eexists. split; [reflexivity|]. cbn. auto.
    - unfold enc_none in S. rewrite (tag_same _ _ _ S). cbn. eexists. split; [reflexivity|]. exact I. Qed.

  Lemma dataset_arr {A B} ex (f : A -> tree) (dec dec' : tree -> res B) l t : same_file (enc_arr f l) t -> dataset_or ex dec dec' t = dec t.
  Proof. intros S. apply same_leaf in S; [|exact I]. subst. reflexivity. Qed.
  Lemma dataset_group {B} ex (dec dec' : tree -> res B) tag ms t : same_file (TGroup tag ms) t ->
    dataset_or ex dec dec' t = match ex with AttributeError => dec' t | e => Err e end.
  Proof. intros S. apply same_group_inv in S as (ms' & ms'' & -> & _). reflexivity. Qed.

  Lemma loads_ident r : proper_shape (i_shape r) -> loads_like (dec_ident AttributeError) (enc_ident elist r) (same_result r).
  Proof. intros W t S. unfold dec_ident. unfold enc_ident in S. fld S "shape"%string. destruct (loads_shape _ W _ S0) as (s & -> & Hs). cbn [bind].
    fld S "dimension"%string. unfold dec_dimension.
    assert (Ed : dataset_or AttributeError (fun d => let! n := dec_nat d in Ok (Some n)) dec_opt_int u0 = Ok (i_dimension r)).
    { pose proof (loads_opt_int _ _ S1) as X. destruct (i_dimension r) as [n|]; cbn [enc_opt_int] in S1; (rewrite (dataset_group _ _ _ _ _ _ S1)); exact X. }
    rewrite Ed. cbn [bind]. fld S "positions"%string. unfold dec_result_positions. rewrite (dataset_arr _ _ _ _ _ _ S2), (loads_positions _ _ S2). cbn.
    eexists. split; [reflexivity|]. repeat split; auto. Qed.
  Lemma ident_fails e r : e <> AttributeError -> proper_shape (i_shape r) -> fails_with (dec_ident e) (enc_ident elist r) e.
  Proof. intros Ne W t S. unfold dec_ident. unfold enc_ident in S. fld S "shape"%string. destruct (loads_shape _ W _ S0) as (s & -> & Hs). cbn [bind].
    fld S "dimension"%string. unfold dec_dimension.
    assert (Ed : dataset_or e (fun d => let! n := dec_nat d in Ok (Some n)) dec_opt_int u0 = Err e).
    { destruct (i_dimension r) as [n|]; cbn [enc_opt_int] in S1; (rewrite (dataset_group _ _ _ _ _ _ S1)); destruct e; congruence. }
    rewrite Ed. reflexivity. Qed.

  Lemma loads_identc c : wf_box (ic_cs c) -> Forall (fun r => proper_shape (i_shape r)) (ic_results c) ->
    loads_like (dec_identc AttributeError) (enc_identc elist c) (same_container c).
  Proof. intros B W t S. unfold dec_identc. unfold enc_identc in S. fld S "coordinate_system"%string. rewrite (loads_cs _ B _ S0). cbn [bind].
    fld S "results"%string. destruct (loads_list_like (enc_ident elist) (dec_ident AttributeError) same_result (ic_results c)) with (t' := u0) as (rs & -> & H); auto.
    { eapply Forall_impl; [|exact W]. intros r. apply loads_ident. }
    cbn [bind]. fld S "feature_size"%string. rewrite (loads_num _ _ S2). cbn. eexists. split; [reflexivity|]. repeat split; auto. Qed.
  Lemma identc_fails e c : e <> AttributeError -> wf_box (ic_cs c) -> Forall (fun r => proper_shape (i_shape r)) (ic_results c) -> ic_results c <> [] ->
    fails_with (dec_identc e) (enc_identc elist c) e.
  Proof. intros Ne B W N t S. unfold dec_identc. unfold enc_identc in S. fld S "coordinate_system"%string. rewrite (loads_cs _ B _ S0). cbn [bind].
    fld S "results"%string. rewrite (fails_list (enc_ident elist) (dec_ident e) e (ic_results c) N); auto.
    eapply Forall_impl; [|exact W]. intros r. apply ident_fails; auto. Qed.
End Line.
