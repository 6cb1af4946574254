(** C63: the checks based on neighbour lookups, in double precision. *)
From Coq Require Import ZArith Reals Psatz List.
From Flocq Require Import Core BinarySingleNaN.
From Verif Require Import Base BaseFacts CoordSys CellList Float FloatFacts FloatVector FloatVectorFacts NelderMead FloatMin FloatCell SpecFloatCell FloatCellNum FloatCellFacts PropFloatCell FloatCheck.
From Coq Require Import Lra.
Import ListNotations.
Open Scope list_scope.
Open Scope R_scope.

(** ** lemmas *)
Lemma reliable_total per boxes gap cutoff rs ps c q : reliable per boxes gap cutoff rs ps c -> good_position boxes q -> exists ds ds', fneighbour_distances c q = Ok ds /\ frefined_distances c q = Ok ds'.
Proof. intros (Gb & Ll & Gc & Hf & Hr & Hp & H) Gq. destruct (C62_total per boxes gap cutoff rs ps Gb Hr Hp) as (_ & T). destruct (T c H) as (_ & _ & T3). auto. Qed.
Lemma stored_good per boxes r : Forall good_box boxes -> good_position boxes (dr_pos r) -> good_position boxes (dr_pos (fstored per boxes r)).
Proof. intros Gb Hr. pose proof (stored_storable per boxes Gb r Hr) as St. clear Hr. revert Gb. unfold good_position. revert St. generalize (dr_pos (fstored per boxes r)). intros p St. induction St; intros Gb; inversion Gb; subst; constructor; auto. eapply storable_good; eauto. Qed.
Lemma refined_coords per boxes p : Forall good_box boxes -> good_refined per boxes p -> good_position boxes p.
Proof. unfold good_position. intros Gb St. revert Gb. induction St as [|b x ? ? X]; intros Gb; inversion Gb; subst; constructor; auto. apply (storable_good per); auto. Qed.
Lemma dist_finite per boxes cutoff p q : Forall good_box boxes -> (length boxes <= 64)%nat -> good_cutoff cutoff -> (per = true \/ Forall (fun b => B2R cutoff <= fbox_size b) boxes) -> good_position boxes p -> good_position boxes q -> fin (fdist per boxes q p).
Proof. intros Gb Ll Gc Hf Gp Gq. apply (near_computed per cutoff Gc boxes p q); auto. Qed.
(** the distances reported are those of nodes *)
Lemma reported_node per boxes gap cutoff rs ps c q ds d : reliable per boxes gap cutoff rs ps c -> good_position boxes q -> fneighbour_distances c q = Ok ds -> In d ds ->
  node_at per boxes gap rs q (fun d' => d' = d /\ fin d).
Proof. intros (Gb & Ll & Gc & Hf & Hr & Hp & H) Gq E Hd. destruct (C62_only_stored per boxes gap cutoff rs ps c Gb Hr Hp H q Gq) as (ns & _ & E' & O). rewrite E' in E. injection E as <-. apply in_map_iff in Hd as (r' & <- & Ir). destruct (O r' Ir) as (F & D).
  apply filter_In in F as (F & N). apply in_map_iff in F as (r & <- & Hr'). exists r. split; auto. split; [exact N|]. cbv zeta. split; auto. split; auto. rewrite Forall_forall in Hr. apply (dist_finite per boxes cutoff); auto. apply stored_good; auto. Qed.
Lemma close_reported per boxes gap cutoff rs ps c q ds : reliable per boxes gap cutoff rs ps c -> good_position boxes q -> fneighbour_distances c q = Ok ds ->
  forall r, In r rs -> is_fnode gap r = true -> let p := dr_pos (fstored per boxes r) in differ p q -> B2R (fdist per boxes q p) <= reduced cutoff -> fin (fdist per boxes q p) /\ In (fdist per boxes q p) ds.
Proof. intros (Gb & Ll & Gc & Hf & Hr & Hp & H) Gq E r Ir N p D L. destruct (C62_no_node_missed per boxes gap cutoff rs ps c Gb Ll Gc Hf Hr Hp H q r Gq Ir N D L) as (F & ds' & E' & I). split; auto. rewrite E in E'. injection E' as <-. exact I. Qed.
Lemma less_flt d w : fin d -> fin w -> (flt d w = true <-> less w d).
Proof. intros Fd Fw. unfold flt, less. rewrite Bltb_correct by auto. destruct (Rlt_bool_spec (B2R d) (B2R w)); split; auto; try discriminate. intros (_ & L). lra. Qed.
Lemma exists_less per boxes gap cutoff rs ps c q ds w : reliable per boxes gap cutoff rs ps c -> good_position boxes q -> fin w -> fneighbour_distances c q = Ok ds ->
  (existsb (fun d => flt d w) ds = true -> node_at per boxes gap rs q (less w)) /\
  (node_at per boxes gap rs q (fun d => less w d /\ B2R d <= reduced cutoff) -> existsb (fun d => flt d w) ds = true).
Proof. intros R Gq Fw E. split.
  - intros H. apply existsb_exists in H as (d & Hd & L). destruct (reported_node _ _ _ _ _ _ _ _ _ d R Gq E Hd) as (r & Ir & N & D & <- & F). exists r. split; auto. split; auto. cbv zeta. split; auto. apply less_flt; auto.
  - intros (r & Ir & N & D & L & B). destruct (close_reported _ _ _ _ _ _ _ _ _ R Gq E r Ir N D B) as (F & I). apply existsb_exists. eexists. split; [exact I|]. apply less_flt; auto. Qed.

(** *** The fake potential is infinity or zero; infinity only if there is a node closer than
    its width, and always if there is one closer than its width and the reduced cutoff. *)
Theorem C63_fake_potential : forall per boxes gap cutoff rs ps c q width, reliable per boxes gap cutoff rs ps c -> good_position boxes q -> is_finite width = true ->
  (ffake_potential c width q = Ok (B754_infinity false) /\ node_at per boxes gap rs q (less width)) \/
  (ffake_potential c width q = Ok (B754_zero false) /\ ~ node_at per boxes gap rs q (fun d => less width d /\ B2R d <= reduced cutoff)).
Proof. intros per boxes gap cutoff rs ps c q width R Gq Fw. destruct (reliable_total _ _ _ _ _ _ _ q R Gq) as (ds & _ & E & _). destruct (exists_less _ _ _ _ _ _ _ q ds width R Gq Fw E) as (A & B). unfold ffake_potential. rewrite E. cbn [bind].
  destruct (existsb (fun d => flt d width) ds); [left|right]; split; auto. intros X. specialize (B X). discriminate. Qed.
Print Assumptions C63_fake_potential.

(** *** A position to refine is rejected only if a refined position is closer than the cutoff;
    if it is accepted no refined position is within the reduced cutoff. *)
Lemma recheck_zero cutoff : forall ds, frecheck_loop cutoff 0 0 ds = negb (existsb (fun d => flt d cutoff) ds).
Proof. induction ds as [|d ds IH]; cbn; auto. destruct (flt d cutoff); cbn; auto. Qed.
Theorem C63_refinement_check : forall per boxes gap cutoff rs ps c q, reliable per boxes gap cutoff rs ps c -> good_position boxes q ->
  (fcheck_pos_refinement c cutoff 0 q = Ok true /\ forall p, In p ps -> reduced cutoff < B2R (fdist per boxes q p)) \/
  (fcheck_pos_refinement c cutoff 0 q = Ok false /\ exists p, In p ps /\ less cutoff (fdist per boxes q p)).
Proof. intros per boxes gap cutoff rs ps c q R Gq. pose proof R as (Gb & Ll & Gc & Hf & Hr & Hp & H). destruct (reliable_total _ _ _ _ _ _ _ q R Gq) as (_ & ds & _ & E). unfold fcheck_pos_refinement. rewrite E. cbn [bind]. rewrite recheck_zero.
  pose proof Gc as (Fc & Vc). pose proof (pw_pos (-30)) as P30. pose proof (pw_pos (-400)) as P400. destruct (existsb (fun d => flt d cutoff) ds) eqn:Ex; cbn [negb]; [right|left]; (split; [reflexivity|]).
  - apply existsb_exists in Ex as (d & Hd & L). pose proof (history_good per boxes gap cutoff Gb rs ps c H Hr Hp) as G. destruct (lookup_refined per boxes gap cutoff rs ps c q G Gq) as (ns & En & Hns).
    unfold frefined_distances in E. destruct G as (Ep & Eb & _). rewrite Ep, Eb, En in E. injection E as <-. apply in_map_iff in Hd as (p & <- & Ip). apply Hns in Ip as (Ip & _). exists p. split; auto.
    apply less_flt; auto. rewrite Forall_forall in Hp. apply (dist_finite per boxes cutoff); auto. apply (refined_coords per); auto.
  - intros p Ip. destruct (Rlt_or_le (reduced cutoff) (B2R (fdist per boxes q p))) as [|L]; auto. exfalso. destruct (C62_no_refined_missed per boxes gap cutoff rs ps c Gb Ll Gc Hf Hr Hp H q p Gq Ip L) as (F & ds' & E' & I). assert (ds' = ds) by congruence. subst ds'.
    assert (X : existsb (fun d => flt d cutoff) ds = true) by (apply existsb_exists; eexists; split; [exact I|]; apply less_flt; auto; split; auto; unfold reduced in L; nra). congruence. Qed.
Print Assumptions C63_refinement_check.

(** *** With rechecking (and count cutoff 0) refined positions are separated: whatever results
    arrive and whatever positions are proposed, in any order, any two refined positions have a
    computed distance above the reduced cutoff.  (C30 in double precision.) *)
Inductive operation := AddResult (r : dmin_result) | Refine (p : list double).
Fixpoint operate (cutoff : double) (c : fcontainer) (ops : list operation) : res fcontainer :=
  match ops with
  | [] => Ok c
  | AddResult r :: ops' => let! cb := fadd_result c r in operate cutoff (fst cb) ops'
  | Refine p :: ops' => let! c' := frefine_step c cutoff p in operate cutoff c' ops'
  end.
Definition good_operation (per : bool) (boxes : list (double * double)) (o : operation) : Prop :=
  match o with AddResult r => good_position boxes (dr_pos r) | Refine p => good_refined per boxes p end.
Lemma separated_snoc per boxes cutoff ps q : separated per boxes cutoff ps -> (forall p, In p ps -> reduced cutoff < B2R (fdist per boxes q p)) -> separated per boxes cutoff (ps ++ [q]).
Proof. intros H Hq i j p p' L Ei Ej. assert (Lj : (j < length (ps ++ [q]))%nat) by (apply nth_error_Some; congruence). rewrite app_length in Lj. cbn in Lj. rewrite nth_error_app1 in Ei by lia.
  destruct (Nat.eq_dec j (length ps)) as [->|N]; [rewrite nth_error_app2, Nat.sub_diag in Ej by lia; cbn in Ej; injection Ej as <-; apply Hq; eapply nth_error_In; eauto|].
  rewrite nth_error_app1 in Ej by lia. apply (H i j p p'); auto. Qed.
Lemma operate_ok per boxes gap cutoff : forall ops rs ps c, reliable per boxes gap cutoff rs ps c -> separated per boxes cutoff ps -> Forall (good_operation per boxes) ops ->
  exists c' rs' ps', operate cutoff c ops = Ok c' /\ reliable per boxes gap cutoff rs' ps' c' /\ separated per boxes cutoff ps' /\ (exists l, ps' = ps ++ l).
Proof. induction ops as [|o ops IH]; intros rs ps c R Sp Ho; [exists c, rs, ps; repeat split; auto; try apply R; exists []; rewrite app_nil_r; reflexivity|]. inversion Ho as [|? ? G1 G2]; subst. pose proof R as (Gb & Ll & Gc & Hf & Hr & Hp & H).
  destruct (C62_total per boxes gap cutoff rs ps Gb Hr Hp) as (_ & T). destruct (T c H) as (T1 & T2 & _). destruct o as [r|p]; cbn [operate].
  - destruct (T1 r G1) as (c' & E). rewrite E. cbn [bind fst]. apply (IH (rs ++ [r]) ps); auto. unfold reliable. repeat (split; auto). + apply Forall_app; auto. + eapply fh_add; eauto.
  - unfold frefine_step. destruct (C63_refinement_check per boxes gap cutoff rs ps c p R (refined_coords per boxes p Gb G1)) as [(E & D)|(E & _)]; rewrite E; cbn [bind].
    + destruct (T2 p G1) as (c' & E'). rewrite E'. cbn [bind]. destruct (IH rs (ps ++ [p]) c') as (c2 & rs2 & ps2 & A & B & C & l & D2); auto.
      * unfold reliable. repeat (split; auto). -- apply Forall_app; auto. -- eapply fh_refined; eauto.
      * apply separated_snoc; auto.
      * exists c2, rs2, ps2. split; auto. split; auto. split; auto. exists (p :: l). rewrite D2, <- app_assoc. reflexivity.
    + apply IH with (rs := rs); auto. Qed.
Theorem C63_refined_separated : forall per boxes gap cutoff rs ps c ops, reliable per boxes gap cutoff rs ps c -> separated per boxes cutoff ps -> Forall (good_operation per boxes) ops ->
  exists c', operate cutoff c ops = Ok c' /\ separated per boxes cutoff (cl_flat (fc_refined c')) /\ exists l, cl_flat (fc_refined c') = ps ++ l.
Proof. intros per boxes gap cutoff rs ps c ops R Sp Ho. destruct (operate_ok per boxes gap cutoff ops rs ps c R Sp Ho) as (c' & rs' & ps' & E & R' & Sp' & L). exists c'. split; auto.
  destruct R' as (Gb & _ & _ & _ & Hr & Hp & H). destruct (C62_classified per boxes gap cutoff rs' ps' c' Gb Hr Hp H) as (_ & _ & ->). auto. Qed.
Print Assumptions C63_refined_separated.

(** *** A simplex is discarded only if more than [k] of its vertices have a node closer than
    the cutoff, and always if more than [k] have one within the reduced cutoff. *)
Lemma at_least_pred {A} (P : A -> Prop) n l : at_least P (S n) l -> at_least P n l.
Proof. intros Hl. remember (S n) as m eqn:E. revert n E. induction Hl as [|m a l Pa Hl IHl|m a l Hl IHl]; intros n E; [discriminate| |].
  - injection E as ->. destruct n; [constructor|]. apply al_skip. auto.
  - subst. apply al_skip. auto. Qed.
Lemma at_least_inv {A} (P : A -> Prop) n a l : at_least P (S n) (a :: l) -> (P a /\ at_least P n l) \/ at_least P (S n) l.
Proof. intros H. inversion H; subst; auto. Qed.
Lemma at_least_nil {A} (P : A -> Prop) n : ~ at_least P (S n) [].
Proof. intros H. inversion H. Qed.
Lemma check_loop per boxes gap cutoff rs ps c k : reliable per boxes gap cutoff rs ps c -> forall vs count, Forall (good_position boxes) vs -> (count <= k)%nat ->
  (fcheck_simplex_loop c cutoff k count vs = Ok true /\ ~ at_least (fun q => node_at per boxes gap rs q (fun d => B2R d <= reduced cutoff)) (S (k - count)) vs) \/
  (fcheck_simplex_loop c cutoff k count vs = Ok false /\ at_least (fun q => node_at per boxes gap rs q (less cutoff)) (S (k - count)) vs).
Proof. intros R. pose proof R as (Gb & Ll & Gc & Hf & Hr & Hp & H). pose proof Gc as (Fc & Vc). induction vs as [|q vs IH]; intros count Hv Hk; cbn [fcheck_simplex_loop].
  - left. split; auto. apply at_least_nil.
  - inversion Hv as [|? ? Gq Hv']; subst. destruct (reliable_total _ _ _ _ _ _ _ q R Gq) as (ds & _ & E & _). rewrite E. cbn [bind]. destruct (exists_less _ _ _ _ _ _ _ q ds cutoff R Gq Fc E) as (A & B).
    destruct (existsb (fun d => flt d cutoff) ds) eqn:Ex.
    + destruct (Nat.ltb_spec k (S count)) as [L|L].
      * right. split; auto. replace (k - count)%nat with 0%nat by lia. apply al_yes; [auto|constructor].
      * replace (k - count)%nat with (S (k - S count)) by lia. destruct (IH (S count) Hv' ltac:(lia)) as [(E1 & N)|(E1 & Y)]; [left|right]; (split; [auto|]).
        -- intros X. apply N. apply at_least_inv in X as [(_ & X)|X]; auto. apply at_least_pred; auto.
        -- apply al_yes; auto.
    + destruct (IH count Hv' Hk) as [(E1 & N)|(E1 & Y)]; [left|right]; (split; [auto|]).
      * intros X. apply N. apply at_least_inv in X as [(X & _)|X]; auto. exfalso. assert (W : node_at per boxes gap rs q (fun d => less cutoff d /\ B2R d <= reduced cutoff)).
        { destruct X as (r & Ir & Nr & Df & L). exists r. split; auto. split; auto. cbv zeta. split; auto. split; auto. rewrite Forall_forall in Hr. split; [apply (dist_finite per boxes cutoff); auto; apply stored_good; auto|]. unfold reduced in L. pose proof (pw_pos (-30)). pose proof (pw_pos (-400)). nra. }
        specialize (B W). discriminate.
      * apply al_skip; auto. Qed.
Theorem C63_simplex_rule : forall per boxes gap cutoff rs ps c k vs, reliable per boxes gap cutoff rs ps c -> Forall (good_position boxes) vs ->
  (fcheck_simplex c cutoff k vs = Ok true /\ ~ at_least (fun q => node_at per boxes gap rs q (fun d => B2R d <= reduced cutoff)) (S k) vs) \/
  (fcheck_simplex c cutoff k vs = Ok false /\ at_least (fun q => node_at per boxes gap rs q (less cutoff)) (S k) vs).
Proof. intros per boxes gap cutoff rs ps c k vs R Hv. pose proof (check_loop per boxes gap cutoff rs ps c k R vs 0 Hv ltac:(lia)) as X. rewrite Nat.sub_0_r in X. exact X. Qed.
Print Assumptions C63_simplex_rule.

(** hypotheses met: the setting of [C62_hypotheses_met]; the query is close to the node (across
    the boundary), so the fake potential is infinite there; a second refinement nearby is
    rejected. *)
Lemma c63_node_in_box : good_refined true c62_boxes2 c62_node.
Proof. destruct fone_val as (F1 & V1). destruct (of_dyadic_val (-1) (-1) ltac:(lia) ltac:(lia)) as (_ & Vl). destruct (of_dyadic_val 1 (-1) ltac:(lia) ltac:(lia)) as (Fh & Vh). destruct (of_dyadic_val 15 (-5) ltac:(lia) ltac:(lia)) as (Fn & Vn). change (pw (-1)) with (/ 2) in *. change (pw (-5)) with (/ 32) in *.
  destruct (Forall_inv c62_sizes) as (A1 & _). destruct (Forall_inv (Forall_inv_tail c62_sizes)) as (B1 & _). constructor; [|constructor; [|constructor]].
  - split; [exact Fn|]. rewrite A1. cbn [fst]. rewrite Vl, Vn. lra.
  - split; [exact Fh|]. rewrite B1. cbn [fst]. rewrite Vh. change (B2R (B754_zero false)) with 0. lra. Qed.
Definition c63_result : dmin_result := result_at c62_node (B754_zero false).
Definition c63_outcome : option (bool * bool * bool * nat) :=
  match fcontainer_new true c62_boxes2 fone c62_quarter [c63_result] [] with
  | Err _ => None
  | Ok c =>
    match ffake_potential c c62_quarter c62_query, fcheck_pos_refinement c c62_quarter 0 c62_node, fcheck_simplex c c62_quarter 0 [c62_query], operate c62_quarter c [Refine c62_node; AddResult c63_result; Refine c62_node] with
    | Ok v, Ok b, Ok s, Ok c' => Some (is_finite v, b, s, length (cl_flat (fc_refined c')))
    | _, _, _, _ => None
    end
  end.
Theorem C63_hypotheses_met :
  (exists c, reliable true c62_boxes2 fone c62_quarter [c63_result] [] c) /\ good_position c62_boxes2 c62_query /\ separated true c62_boxes2 c62_quarter [] /\
  Forall (good_operation true c62_boxes2) [Refine c62_node; AddResult c63_result; Refine c62_node] /\
  c63_outcome = Some (false, true, false, 1%nat).
Proof. destruct C62_hypotheses_met as (Gb & Gc & Gn & Gq & _ & _ & _). assert (Hr : Forall (fun r => good_position c62_boxes2 (dr_pos r)) [c63_result]) by (constructor; [exact Gn|constructor]).
  split; [|split; [exact Gq|split; [intros i j p p' _ E; destruct i; discriminate E|split]]].
  - destruct (C62_total true c62_boxes2 fone c62_quarter [c63_result] [] Gb Hr (Forall_nil _)) as ((c & E) & _). exists c. repeat (split; auto); try (cbn; lia). apply fh_new; exact E.
  - constructor; [apply c63_node_in_box|]. constructor; [exact Gn|]. constructor; [apply c63_node_in_box|constructor].
  - vm_compute. reflexivity. Qed.
Print Assumptions C63_hypotheses_met.
