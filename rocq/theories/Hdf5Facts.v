(** Round trips through the file format. *)
From Coq Require Import String.
From Verif Require Import Base BaseFacts CoordSys SpecGeom CoordSysFacts CellList CellListFacts Values Container
  SpecContainer ContainerFacts ContainerHist Queue QueueFacts Hdf5 SpecHdf5.
Open Scope list_scope.
Open Scope Qc_scope.

Lemma f2_length {A B} {R : A -> B -> Prop} {l m} : Forall2 R l m -> List.length l = List.length m.
Proof. induction 1; cbn; auto. Qed.
Lemma member_in k t ms : NoDup (map fst ms) -> In (k, t) ms -> member k ms = Ok t.
Proof. induction ms as [|[k' t'] ms IH]; cbn -[eqb]; [intros _ []|]. intros N [E|I].
  - injection E as -> ->. rewrite eqb_refl. reflexivity.
  - inversion N as [|? ? H1 H2]; subst. destruct (eqb k k') eqn:E; [|auto]. apply eqb_spec in E. subst.
    exfalso. apply H1. change k' with (fst (k', t)). apply in_map; auto. Qed.
Lemma member_none k ms : ~ In k (map fst ms) -> member k ms = Err KeyError.
Proof. induction ms as [|[k' t'] ms IH]; cbn -[eqb]; auto. intros H. rewrite (proj2 (eqb_false k k')); auto. Qed.

Lemma keys_same ms ms' : Forall2 (fun a b : key * tree => fst a = fst b /\ same_file (snd a) (snd b)) ms ms' -> map fst ms = map fst ms'.
Proof. induction 1 as [|a b ms ms' [H _] F IH]; cbn; congruence. Qed.

(** what a group looks like after rewriting *)
Lemma same_group_inv tag ms t' : same_file (TGroup tag ms) t' ->
  exists ms' ms'', t' = TGroup tag ms'' /\
    Forall2 (fun a b => fst a = fst b /\ same_file (snd a) (snd b)) ms ms' /\ Permutation ms' ms''.
Proof. intros H. inversion H as [|tag' m0 ms' ms'' F P]; subst.
  - exists ms, ms. split; auto. split; auto. clear. induction ms as [|a m IH]; constructor; auto. split; [auto|apply same_refl].
  - exists ms', ms''. auto. Qed.

Lemma member_same k t ms ms' ms'' : NoDup (map fst ms) -> In (k, t) ms ->
  Forall2 (fun a b => fst a = fst b /\ same_file (snd a) (snd b)) ms ms' -> Permutation ms' ms'' ->
  exists t', member k ms'' = Ok t' /\ same_file t t'.
Proof. intros N I F P.
  assert (H : exists t', In (k, t') ms' /\ same_file t t').
  { clear N P. induction F as [|[a ta] [b tb] ms ms' [H1 H2] F IH]; [destruct I|]. cbn in H1, H2. subst b. destruct I as [E|I].
    - injection E as -> ->. exists tb. split; [left; auto|auto].
    - destruct (IH I) as (t' & A & B). exists t'. split; [right; auto|auto]. }
  destruct H as (t' & A & B). exists t'. split; auto. apply member_in.
  - apply (Permutation_NoDup (l := map fst ms')); [apply Permutation_map; auto|]. rewrite <- (keys_same _ _ F). auto.
  - eapply Permutation_in; eauto. Qed.

Lemma field_same tag name t ms t' : NoDup (map fst ms) -> In (KName name, t) ms -> same_file (TGroup tag ms) t' ->
  exists u, field name t' = Ok u /\ same_file t u.
Proof. intros N I H. apply same_group_inv in H as (ms' & ms'' & -> & F & P). cbn. eapply member_same; eauto. Qed.
Lemma field_none tag name ms t' : ~ In (KName name) (map fst ms) -> same_file (TGroup tag ms) t' -> field name t' = Err KeyError.
Proof. intros N H. apply same_group_inv in H as (ms' & ms'' & -> & F & P). cbn. apply member_none.
  rewrite (keys_same _ _ F) in N. intros I. apply N. eapply Permutation_in; [|exact I]. apply Permutation_map, Permutation_sym; auto. Qed.
Lemma tag_same tag ms t' : same_file (TGroup tag ms) t' -> tag_of t' = Ok tag.
Proof. intros H. apply same_group_inv in H as (ms' & ms'' & -> & _). reflexivity. Qed.

(** leaves *)
Lemma same_leaf t t' : (match t with TGroup _ _ => False | _ => True end) -> same_file t t' -> t' = t.
Proof. intros H S. inversion S; subst; auto. destruct H. Qed.

Lemma sequence_map {A B} (f : A -> B) (g : B -> res A) l : (forall a, In a l -> g (f a) = Ok a) -> sequence (map g (map f l)) = Ok l.
Proof. induction l as [|a l IH]; intros H; cbn; auto. rewrite H by (left; auto). rewrite IH by (intros; apply H; right; auto). reflexivity. Qed.
Lemma dec_enc_arr {A} (f : A -> tree) (g : tree -> res A) l : (forall a, g (f a) = Ok a) -> dec_arr g (enc_arr f l) = Ok l.
Proof. intros H. unfold dec_arr, enc_arr. apply sequence_map. auto. Qed.
Lemma dec_enc_point p : dec_point (enc_point p) = Ok p.
Proof. apply dec_enc_arr. reflexivity. Qed.
Lemma dec_enc_nat n : dec_nat (enc_nat n) = Ok n.
Proof. unfold dec_nat, enc_nat. cbn. rewrite Nat2Z.id. reflexivity. Qed.

Lemma loads_arr {A} (f : A -> tree) (g : tree -> res A) l : (forall a, g (f a) = Ok a) -> loads_as (dec_arr g) (enc_arr f l) l.
Proof. intros H t S. apply same_leaf in S; [|exact I]. subst. apply dec_enc_arr; auto. Qed.
Lemma loads_point p : loads_as dec_point (enc_point p) p.
Proof. apply loads_arr. reflexivity. Qed.
Lemma loads_nat n : loads_as dec_nat (enc_nat n) n.
Proof. intros t S. apply same_leaf in S; [|exact I]. subst. apply dec_enc_nat. Qed.
Lemma loads_int z : loads_as dec_int (TInt z) z.
Proof. intros t S. apply same_leaf in S; [|exact I]. subst. reflexivity. Qed.
Lemma loads_bool z : loads_as dec_bool (TBool z) z.
Proof. intros t S. apply same_leaf in S; [|exact I]. subst. reflexivity. Qed.
Lemma loads_num z : loads_as dec_num (TNum z) z.
Proof. intros t S. apply same_leaf in S; [|exact I]. subst. reflexivity. Qed.
Lemma loads_val z : loads_as dec_val (TVal z) z.
Proof. intros t S. apply same_leaf in S; [|exact I]. subst. reflexivity. Qed.

(** lists of objects *)
Lemma sort_by_num_perm ms : Permutation (sort_by (fun a b : key * tree => (key_num (fst a) <=? key_num (fst b))%nat) ms) ms.
Proof. apply sort_perm. Qed.
Lemma sorted_seq_unique {A} (f : A -> nat) (l : list A) : forall m a,
  map f l = seq a (List.length l) -> Permutation l m -> sorted (fun x y => (f x <=? f y)%nat) m -> l = m.
Proof. induction l as [|x l IH]; intros m a E P S.
  - apply Permutation_nil in P. auto.
  - cbn in E. injection E as E1 E2. destruct m as [|y m]; [apply Permutation_sym, Permutation_nil in P; discriminate|].
    assert (Hxy : x = y).
    { inversion S as [|? ? Hy S']; subst. rewrite Forall_forall in Hy.
      assert (Iy : In y (x :: l)) by (eapply Permutation_in; [apply Permutation_sym; eauto|left; auto]).
      destruct Iy as [|Iy]; auto. exfalso.
      assert (Ix : In x (y :: m)) by (eapply Permutation_in; [eauto|left; auto]). destruct Ix as [->|Ix].
      - assert (In (f x) (map f l)) by (apply in_map; auto). rewrite E2 in H. apply in_seq in H. lia.
      - specialize (Hy x Ix). apply Nat.leb_le in Hy. assert (In (f y) (map f l)) by (apply in_map; auto).
        rewrite E2 in H. apply in_seq in H. lia. }
    subst y. f_equal. apply (IH m (Datatypes.S a)); auto; [eapply Permutation_cons_inv; eauto|inversion S; auto]. Qed.
Lemma map_fst_combine {A B} (l : list A) (m : list B) : List.length l = List.length m -> map fst (combine l m) = l.
Proof. revert m. induction l; intros [|b m] H; cbn in *; try discriminate; auto. f_equal; auto. Qed.
Lemma combine_length_eq {A B} (l : list A) (m : list B) : List.length l = List.length m -> List.length (combine l m) = List.length l.
Proof. intros H. rewrite combine_length, H, Nat.min_id. auto. Qed.

Lemma loads_list {A} (f : A -> tree) (g : tree -> res A) l l' :
  Forall2 (fun a b => loads_as g (f a) b) l l' -> loads_as (dec_list g) (enc_list f l) l'.
Proof. intros H t S. unfold enc_list in S. apply same_group_inv in S as (ms' & ms'' & -> & F & P).
  set (ks := map KNum (seq 0 (List.length l))) in *.
  assert (Lk : List.length ks = List.length (map f l)) by (unfold ks; rewrite !map_length, seq_length; auto).
  assert (Lm : List.length ms' = List.length l).
  { rewrite <- (f2_length F), combine_length_eq by auto. unfold ks. rewrite map_length, seq_length. auto. }
  assert (K : map fst ms' = ks) by (rewrite <- (keys_same _ _ F); apply map_fst_combine; auto).
  set (leb := fun a b : key * tree => (key_num (fst a) <=? key_num (fst b))%nat).
  assert (E : sort_by leb ms'' = ms').
  { symmetry. apply (sorted_seq_unique (fun kt => key_num (fst kt)) ms' _ 0).
    - rewrite <- (map_map fst key_num), K. unfold ks. rewrite map_map. cbn. rewrite map_id. rewrite Lm. auto.
    - rewrite sort_perm. auto.
    - apply sort_sorted; unfold leb; intros; rewrite ?Nat.leb_le in *; lia. }
  unfold dec_list. fold leb. rewrite E. clear E P K leb ms''.
  assert (F' : Forall2 (fun a b => same_file (f a) (snd b)) l ms').
  { clear -F Lk. clearbody ks. revert l ms' Lk F. generalize ks as ks'. clear ks. induction ks' as [|k ks' IH]; intros [|a l] ms' L F; cbn in *; try discriminate.
    - inversion F; constructor.
    - inversion F as [|? ? ? ? [_ H1] H2]; subst. constructor; auto. }
  clear F Lk Lm ks. revert l' H. induction F' as [|a b l ms' Hab F' IH]; intros l' H; inversion H; subst; cbn; auto.
  match goal with H : loads_as g (f a) _ |- _ => rewrite (H _ Hab) end. rewrite (IH _ ltac:(eassumption)). reflexivity. Qed.

Ltac nodup_keys := cbn; repeat constructor; cbn; intuition discriminate.
Ltac fld S name := 
  let u := fresh "u" in let E := fresh "E" in let S' := fresh "S" in
  match type of S with same_file (TGroup ?tag ?ms) ?t =>
    match ms with context [(KName name, ?v)] =>
      destruct (field_same tag name v ms t) as (u & E & S'); [nodup_keys|cbn; intuition|exact S|]; rewrite E; cbn [bind]
    end
  end.

Lemma loads_min r : loads_as dec_min (enc_min r) r.
Proof. intros t S. unfold enc_min in S. unfold dec_min.
  destruct (r_fun_history r) as [h|] eqn:Eh; cbn [app] in S.
  - fld S "pos"%string. rewrite (loads_point _ _ S0). cbn [bind].
    fld S "value"%string. rewrite (loads_val _ _ S1). cbn [bind].
    fld S "num_iter"%string. rewrite (loads_nat _ _ S2). cbn [bind].
    fld S "num_fev"%string. rewrite (loads_nat _ _ S3). cbn [bind].
    fld S "status"%string. rewrite (loads_int _ _ S4). cbn [bind].
    fld S "success"%string. rewrite (loads_bool _ _ S5). cbn [bind].
    fld S "simplex_history"%string. rewrite (loads_arr _ _ _ (fun a => dec_enc_arr _ _ _ dec_enc_point) _ S6). cbn [bind].
    unfold has_field. fld S "fun_simplex_history"%string.
    rewrite (loads_arr _ _ _ (fun a => dec_enc_arr _ _ _ (fun b => eq_refl)) _ S7). cbn [bind]. destruct r; cbn in *; congruence.
  - fld S "pos"%string. rewrite (loads_point _ _ S0). cbn [bind].
    fld S "value"%string. rewrite (loads_val _ _ S1). cbn [bind].
    fld S "num_iter"%string. rewrite (loads_nat _ _ S2). cbn [bind].
    fld S "num_fev"%string. rewrite (loads_nat _ _ S3). cbn [bind].
    fld S "status"%string. rewrite (loads_int _ _ S4). cbn [bind].
    fld S "success"%string. rewrite (loads_bool _ _ S5). cbn [bind].
    fld S "simplex_history"%string. rewrite (loads_arr _ _ _ (fun a => dec_enc_arr _ _ _ dec_enc_point) _ S6). cbn [bind].
    unfold has_field. rewrite (fun H => field_none _ "fun_simplex_history"%string _ _ H S); [|cbn; intuition discriminate].
    destruct r; cbn in *; congruence. Qed.

Definition forget (r : result) : result := match r with Plain m => Plain m | Joined c a _ => Joined c a None end.
Lemma loads_result r : loads_as dec_result (enc_result r) (forget r).
Proof. intros t S. unfold dec_result. destruct r as [m|c a o]; cbn [enc_result forget] in *.
  - pose proof S as S'. unfold enc_min in S'. rewrite (tag_same _ _ _ S'). cbn. rewrite (loads_min _ _ S). reflexivity.
  - rewrite (tag_same _ _ _ S). cbn. fld S "ancestor"%string. rewrite (loads_min _ _ S0). cbn [bind].
    fld S "child"%string. rewrite (loads_min _ _ S1). reflexivity. Qed.

Lemma sort2_id l : fst l < snd l -> sort2 l = l.
Proof. intros H. unfold sort2. dltb (snd l) (fst l); auto. exfalso. qlra. Qed.
Lemma loads_cs cs : wf_box cs -> loads_as dec_cs (enc_cs cs) cs.
Proof. intros W t S. unfold dec_cs. unfold enc_cs in S. fld S "limits"%string.
  unfold enc_limits in S0. rewrite (loads_arr (fun x : Qc * Qc => enc_point [fst x; snd x]) dec_pair _ ltac:(intros [x y]; reflexivity) _ S0). cbn [bind].
  fld S "periodic"%string. rewrite (loads_bool _ _ S1). cbn [bind]. unfold coordinate_system.
  assert (E1 : map sort2 (limits cs) = limits cs).
  { unfold wf_box in W. clear -W. induction W as [|l ls Hl W IH]; cbn [map]; auto. rewrite sort2_id by auto. congruence. }
  rewrite E1. destruct cs; reflexivity. Qed.

Lemma loads_queue {A} `{EqDec A} tag (f : A -> tree) g norm order q : (forall a, g (f a) = Ok a) ->
  loads_as (dec_queue norm g) (enc_queue tag f order q) (queue_new norm (objects order q)).
Proof. intros Hg t S. unfold dec_queue. unfold enc_queue in S. fld S "objects"%string. rewrite (loads_arr _ _ _ Hg _ S0). reflexivity. Qed.

(** ** Containers *)

(** a container is determined by its geometry, thresholds and value lists *)
Lemma cl_good_unique {V} (k : V -> point) (c d : cell_list V) : cl_good k c -> cl_good k d ->
  cl_num c = cl_num d -> cl_periodic c = cl_periodic d -> cl_flat c = cl_flat d -> c = d.
Proof. intros (P & R & C) (P' & R' & C') N Pe F. destruct c, d; cbn in *; subst.
  f_equal. rewrite C, C'. unfold cl_total, get_index. cbn. reflexivity. Qed.
Lemma represents_unique cs gap cutoff rs ps c rs' ps' d :
  represents cs gap cutoff rs ps c -> represents cs gap cutoff rs' ps' d ->
  filter (is_node gap) (map (stored cs) rs) = filter (is_node gap) (map (stored cs) rs') ->
  filter (fun r => negb (is_node gap r)) (map (stored cs) rs) = filter (fun r => negb (is_node gap r)) (map (stored cs) rs') ->
  ps = ps' -> set_c_needs_saving c (c_needs_saving d) = d.
Proof. intros (G & C1 & C2 & C3 & C4 & C5 & C6) (G' & D1 & D2 & D3 & D4 & D5 & D6) E1 E2 E3.
  assert (N : c_nodes c = c_nodes d).
  { eapply cl_good_unique with (k := node_key cs).
    - rewrite <- C1. apply G. - rewrite <- D1. apply G'.
    - rewrite (cg_num_n G), (cg_num_n G'). congruence.
    - rewrite (cg_per_n G), (cg_per_n G'). congruence.
    - congruence. }
  assert (R : c_refined c = c_refined d).
  { eapply cl_good_unique with (k := get_frac cs).
    - rewrite <- C1. apply G. - rewrite <- D1. apply G'.
    - rewrite (cg_num_r G), (cg_num_r G'). congruence.
    - rewrite (cg_per_r G), (cg_per_r G'). congruence.
    - congruence. }
  destruct c, d; unfold set_c_needs_saving in *; cbn in *. congruence. Qed.

Lemma stored_forget cs r : wf_box cs -> own_position cs r -> is_pos cs (pos_of r) -> stored cs (forget (stored cs r)) = stored cs r.
Proof. intros W O P. destruct r as [m|c a [p|]]; cbn in *; unfold stored; cbn; rewrite ?normalize_idem; auto. congruence. Qed.
Lemma is_node_forget gap r : is_node gap (forget r) = is_node gap r.
Proof. destruct r; reflexivity. Qed.
Lemma is_pos_forget cs r : is_pos cs (pos_of (stored cs r)) -> is_pos cs (pos_of r) -> is_pos cs (pos_of (forget (stored cs r))) \/ exists c a o, r = Joined c a o.
Proof. destruct r; cbn; eauto. Qed.

Lemma filter_filter_idem {A} (f : A -> bool) l : filter f (filter f l) = filter f l.
Proof. induction l as [|a l IH]; cbn; auto. destruct (f a) eqn:E; cbn; rewrite ?E; congruence. Qed.
Lemma filter_filter_neg {A} (f : A -> bool) l : filter f (filter (fun x => negb (f x)) l) = [].
Proof. induction l as [|a l IH]; cbn; auto. destruct (f a) eqn:E; cbn; rewrite ?E; auto. Qed.
Lemma filter_neg_filter {A} (f : A -> bool) l : filter (fun x => negb (f x)) (filter f l) = [].
Proof. induction l as [|a l IH]; cbn; auto. destruct (f a) eqn:E; cbn; rewrite ?E; auto. Qed.

(** positions of restored results are positions *)

Lemma loads_container cs gap cutoff rs ps c : wf_box cs -> history cs gap cutoff rs ps c ->
  Forall (own_position cs) rs -> Forall (child_pos cs) rs ->
  loads_as dec_container (enc_container c) (set_c_needs_saving c true).
Proof. intros W H O CP t S. pose proof (history_represents W H) as R. pose proof R as (G & C1 & C2 & C3 & C4 & C5 & C6).
  assert (PS : Forall (is_pos cs) ps). { pose proof (cg_pos_r G) as Q. rewrite C6, C1 in Q. exact Q. }
  assert (RP : Forall (fun r => is_pos cs (pos_of r)) rs).
  { apply Forall_forall. intros r Hr. exact (hist_stored_pos H _ Hr). }
  unfold enc_container in S. unfold dec_container.
  fld S "coordinate_system"%string. rewrite C1 in S0. rewrite (loads_cs _ W _ S0). cbn [bind].
  fld S "minimization_results"%string.
  assert (L : loads_as (dec_list dec_result) (enc_list enc_result (minimization_results c)) (map forget (minimization_results c))).
  { apply loads_list. clear. induction (minimization_results c); constructor; auto. apply loads_result. }
  rewrite (L _ S1). cbn [bind].
  fld S "dist_cutoff"%string. rewrite (loads_num _ _ S2). cbn [bind].
  fld S "gap_threshold"%string. rewrite (loads_val _ _ S3). cbn [bind].
  unfold has_field. fld S "refined_results"%string.
  assert (L' : loads_as (dec_list dec_point) (enc_list enc_point (cl_flat (c_refined c))) (cl_flat (c_refined c))).
  { apply loads_list. clear. induction (cl_flat (c_refined c)); constructor; auto. apply loads_point. }
  rewrite (L' _ S4). cbn [bind]. rewrite C6, C2, C3.
  set (rs' := map forget (minimization_results c)).
  (* the restored results *)
  set (f := is_node gap). set (g := fun r => negb (is_node gap r)).
  assert (M : minimization_results c = filter f (map (stored cs) rs) ++ filter g (map (stored cs) rs)).
  { unfold minimization_results. rewrite C4, C5. reflexivity. }
  assert (SF : forall r, In r (map (stored cs) rs) -> stored cs (forget r) = r).
  { intros r Hr. apply in_map_iff in Hr as (r0 & <- & Hr). apply stored_forget; auto;
    [rewrite Forall_forall in O|rewrite Forall_forall in RP]; auto. }
  assert (MS : map (stored cs) rs' = minimization_results c).
  { unfold rs'. rewrite map_map. rewrite <- (map_id (minimization_results c)) at 2. apply map_ext_in. intros r Hr. apply SF.
    rewrite M in Hr. apply in_app_iff in Hr as [Hr|Hr]; apply filter_In in Hr; tauto. }
  assert (RP' : Forall (fun r => is_pos cs (pos_of r)) rs').
  { apply Forall_forall. intros r Hr. unfold rs' in Hr. apply in_map_iff in Hr as (r1 & <- & Hr).
    assert (I1 : In r1 (map (stored cs) rs)) by (rewrite M in Hr; apply in_app_iff in Hr as [Hr|Hr]; apply filter_In in Hr; tauto).
    apply in_map_iff in I1 as (r0 & <- & I0). rewrite Forall_forall in RP, CP. specialize (RP _ I0). specialize (CP _ I0).
    destruct r0 as [m|ch a o]; cbn in *; auto. apply normalize_length; auto. }
  destruct (@container_new_ok cs gap cutoff rs' ps W RP' PS) as (d & Ed & Rd & Nd).
  etransitivity; [exact Ed|]. f_equal. rewrite <- Nd. symmetry. eapply represents_unique; [exact R|exact Rd| | |reflexivity].
  - fold f. rewrite MS, M, filter_app, filter_filter_idem. unfold g. rewrite (filter_filter_neg f), app_nil_r. reflexivity.
  - fold g. rewrite MS, M, filter_app. rewrite (filter_filter_idem g). unfold g. rewrite (filter_neg_filter f). reflexivity. Qed.

Lemma loads_state cs gap cutoff rs ps s order : wf_box cs -> history cs gap cutoff rs ps (st_result s) ->
  Forall (own_position cs) rs -> Forall (child_pos cs) rs ->
  loads_as dec_state (enc_state order s)
    {| st_result := set_c_needs_saving (st_result s) true;
       st_simplex := queue_new norm_simplex (objects order (st_simplex s));
       st_position := queue_new norm_pos (objects (fun l => l) (st_position s)) |}.
Proof. intros W H O CP t S. unfold dec_state. unfold enc_state in S.
  fld S "result"%string. rewrite (loads_container _ _ _ _ _ _ W H O CP _ S0). cbn [bind].
  fld S "simplex_queue"%string.
  rewrite (loads_queue _ (enc_arr enc_point) (dec_arr dec_point) norm_simplex order (st_simplex s) (fun a => dec_enc_arr _ _ _ dec_enc_point) _ S1). cbn [bind].
  fld S "position_queue"%string.
  rewrite (loads_queue _ enc_point dec_point norm_pos (fun l => l) (st_position s) dec_enc_point _ S2). reflexivity. Qed.

(** ** A joined result that carries a position of its own *)
Definition lost_result : result :=
  Joined {| r_pos := [qc 0]; r_value := Fin 0; r_success := true; r_status := 0; r_num_fev := 1; r_num_iter := 1;
            r_simplex_history := []; r_fun_history := None |}
         {| r_pos := [qc 0]; r_value := Fin 0; r_success := true; r_status := 0; r_num_fev := 1; r_num_iter := 1;
            r_simplex_history := []; r_fun_history := None |} (Some [half]).
Lemma position_lost : exists cs gap cutoff c c', wf_box cs /\ history cs gap cutoff [lost_result] [] c /\
  loads_as dec_container (enc_container c) c' /\
  map pos_of (cl_flat (c_nodes c)) = [[half]] /\ map pos_of (cl_flat (c_nodes c')) = [[qc 0]].
Proof.
  assert (W : wf_box (cs1 true)) by apply cs1_wf.
  set (r' := Joined {| r_pos := [qc 0]; r_value := Fin 0; r_success := true; r_status := 0; r_num_fev := 1; r_num_iter := 1;
            r_simplex_history := []; r_fun_history := None |}
         {| r_pos := [qc 0]; r_value := Fin 0; r_success := true; r_status := 0; r_num_fev := 1; r_num_iter := 1;
            r_simplex_history := []; r_fun_history := None |} None).
  destruct (@container_new_ok (cs1 true) (Fin 0) half [lost_result] [] W) as (c & E & R & _); [repeat constructor..|].
  destruct (@container_new_ok (cs1 true) (Fin 0) half [r'] [] W) as (c' & E' & R' & _); [repeat constructor..|].
  exists (cs1 true), (Fin 0), half, c, c'. split; [auto|]. split; [apply hist_new; auto; repeat constructor|].
  destruct R as (G & C1 & C2 & C3 & C4 & C5 & C6). destruct R' as (G' & D1 & D2 & D3 & D4 & D5 & D6).
  split; [|split].
  - intros t S. unfold dec_container. unfold enc_container in S. unfold minimization_results in S.
    rewrite C1, C2, C3, C4, C5, C6 in S.
    fld S "coordinate_system"%string. rewrite (loads_cs _ W _ S0). cbn [bind].
    fld S "minimization_results"%string.
    match type of S1 with same_file (enc_list enc_result ?l) _ =>
      assert (L : loads_as (dec_list dec_result) (enc_list enc_result l) (map forget l)) end.
    { apply loads_list. match goal with |- Forall2 _ ?l _ => generalize l end. intros l. induction l; constructor; auto. apply loads_result. }
    rewrite (L _ S1). cbn [bind].
    fld S "dist_cutoff"%string. rewrite (loads_num _ _ S2). cbn [bind].
    fld S "gap_threshold"%string. rewrite (loads_val _ _ S3). cbn [bind].
    unfold has_field. fld S "refined_results"%string.
    assert (L' : loads_as (dec_list dec_point) (enc_list enc_point []) []) by (apply loads_list; constructor).
    rewrite (L' _ S4). cbn [bind]. rewrite <- E'. f_equal.
  - rewrite C4. vm_compute. reflexivity || (do 2 f_equal; apply Qc_is_canon; reflexivity).
  - rewrite D4. vm_compute. reflexivity || (do 2 f_equal; apply Qc_is_canon; reflexivity). Qed.
