(** Facts about the identification in double precision: no exceptions. *)
From Coq Require Import ZArith Reals Psatz List Permutation.
From Flocq Require Import Core BinarySingleNaN.
From Verif Require Import Base BaseFacts CoordSys Graph SpecGraph GraphFacts SpecCluster Dimension DimensionFacts
  Float FloatFacts FloatVector FloatVectorFacts FloatMin FloatCell SpecFloatCell FloatCluster SpecFloatCluster
  FloatIdentify SpecFloatIdentify FloatLine SpecFloatLine FloatLineNum.
From Coq Require Import Lra.
Import ListNotations.
Open Scope list_scope.
Open Scope R_scope.

Lemma sequence_ok {A B} (f : A -> res B) l : (forall x, In x l -> exists y, f x = Ok y) -> exists ys, sequence (map f l) = Ok ys /\ Forall2 (fun x y => f x = Ok y) l ys.
Proof. induction l as [|a l IH]; intros H; [exists []; split; [reflexivity|constructor]|]. destruct (H a (or_introl eq_refl)) as (y & E). destruct IH as (ys & Es & F); [intros; apply H; right; auto|]. exists (y :: ys). cbn. rewrite E, Es. split; [reflexivity|constructor; auto]. Qed.
Lemma counter_add_dims d c x : In x (map fst (counter_add d c)) -> x = d \/ In x (map fst c).
Proof. induction c as [|[e n] c IH]; cbn [counter_add map fst In].
  - intros [<-|[]]; auto.
  - destruct (Nat.eqb e d); cbn [map fst In].
    + intros [<-|H]; auto.
    + intros [<-|H]; [auto|]. apply IH in H. tauto. Qed.
Lemma counter_add_ne d c : counter_add d c <> [].
Proof. destruct c as [|[e n] c]; cbn [counter_add]; [discriminate|]. destruct (Nat.eqb e d); discriminate. Qed.
Lemma fcheck_count_ok (Q : nat -> Prop) c : c <> [] -> (forall k, In k (map fst c) -> Q k) -> exists b d, fcheck_count c = Ok (b, d) /\ Q d.
Proof. intros Ne H. unfold fcheck_count. pose proof (most_common_max c) as M. destruct (most_common c) as [[d n]|]; [|congruence]. eexists. exists d. split; [reflexivity|]. apply H. apply in_map_iff. exists (d, n). split; [reflexivity|apply M]. Qed.
Lemma fcount_total (Q : nat -> Prop) local min_pos : (1 <= min_pos)%nat -> forall ps i c, (forall p, In p ps -> exists d, local p = Ok d /\ Q d) -> (c = [] -> i = 0%nat) ->
  (forall k, In k (map fst c) -> Q k) -> (c <> [] \/ ps <> []) -> exists o, fcount_dimensions local min_pos i c ps = Ok o /\ forall d, o = Some d -> Q d.
Proof. intros Hm. induction ps as [|p ps IH]; intros i c Hl Hi Hq Ne; cbn [fcount_dimensions].
  - destruct (fcheck_count_ok Q c) as (b & d & E & Qd); [tauto|exact Hq|]. rewrite E. cbn [bind]. eexists. split; [reflexivity|]. destruct b; [intros d' [= <-]; exact Qd|discriminate].
  - assert (N : exists o, (let! d := local p in fcount_dimensions local min_pos (S i) (counter_add d c) ps) = Ok o /\ forall d, o = Some d -> Q d).
    { destruct (Hl p (or_introl eq_refl)) as (d & E & Qd). rewrite E. cbn [bind]. apply IH.
      - intros q Hq'. apply Hl. right. exact Hq'.
      - intros X. elim (counter_add_ne d c X).
      - intros k Hk. apply counter_add_dims in Hk as [->|Hk]; auto.
      - left. apply counter_add_ne. }
    destruct (min_pos <=? i)%nat eqn:L; [|exact N]. destruct (fcheck_count_ok Q c) as (b & d & E & Qd); [|exact Hq|].
    + intros ->. rewrite (Hi eq_refl) in L. apply Nat.leb_le in L. lia.
    + rewrite E. cbn [bind]. destruct b; [|exact N]. eexists. split; [reflexivity|]. intros d' [= <-]. exact Qd. Qed.

Section Total.
  Variables (env : fenvironment) (per : bool) (boxes : list fbox) (fs : double) (g : graph fpoint double).
  Hypothesis Gb : Forall good_box boxes.
  Hypothesis Lb : (length boxes <= 64)%nat.
  Hypothesis Hb : Forall (fun b => Rabs (B2R (fst b)) <= bpow radix2 20 /\ Rabs (B2R (snd b)) <= bpow radix2 20) boxes.
  Hypothesis Mp : forall p, In p (g_nodes g) -> moderate_pos boxes p.
  Hypothesis Wf : wf_graph g.
  Hypothesis Env : good_fenvironment env.
  Hypothesis Svd : total_svd (fe_svd env).

  Lemma vectors_ok {A} (f : A -> res fpoint) l : (forall x, In x l -> exists v, f x = Ok v /\ Forall (fun x => fin x) v) -> exists vs, sequence (map f l) = Ok vs /\ length vs = length l /\ Forall (Forall (fun x => fin x)) vs.
  Proof. induction l as [|a l IH]; intros H; [exists []; repeat split; constructor|]. destruct (H a (or_introl eq_refl)) as (v & E & F). destruct IH as (vs & Es & L & F'); [intros; apply H; right; auto|]. exists (v :: vs). cbn. rewrite E, Es, L. cbn. auto. Qed.
  Lemma volume_total p t : In p (g_nodes g) -> incl t (g_nodes g) -> (length t <= 3)%nat -> exists v, fget_volume env per boxes p t = Ok v.
  Proof. intros Ip It L3. unfold fget_volume. destruct (vectors_ok (fun nbr => fvector per boxes nbr p) t) as (vs & E & Lv & F).
    { intros q Iq. destruct (vector_dist per boxes Gb Lb Hb q p (Mp q (It q Iq)) (Mp p Ip)) as (v & Ev & _ & Fv & _). exists v. auto. }
    rewrite E. cbn [bind]. destruct (Svd vs) as (s & Es); [exact (eq_ind_r (fun n => (n <= 3)%nat) L3 Lv)|exact F|]. assert (Es' : fe_svd env vs = Ok s) by exact Es. rewrite Es'. cbn [bind]. eauto. Qed.
  Lemma tuples_total p m lim ts : In p (g_nodes g) -> (forall t, In t ts -> incl t (g_nodes g) /\ (length t <= 3)%nat) -> forall seen results, exists b u, fevaluate_tuples env per boxes p m lim seen results ts = Ok (b, u).
  Proof. intros Ip. induction ts as [|t ts IH]; intros Ht seen results; cbn [fevaluate_tuples]; [eauto|]. destruct (_ && _ && _); [eauto|]. destruct (Ht t (or_introl eq_refl)) as (I & L). destruct (volume_total p t Ip I L) as (v & E). rewrite E. cbn [bind]. apply IH. intros t' It. apply Ht. right. exact It. Qed.
  Lemma tuples_in p d t : (d <= 3)%nat -> In t (fe_tuples env g p d) -> incl t (g_nodes g) /\ (length t <= 3)%nat.
  Proof. intros D It. destruct Env as (_ & _ & _ & Tu & _). destruct (Tu g p d Wf) as (Ch & _). rewrite Forall_forall in Ch. destruct (Ch t It) as (_ & I & L). split; [|rewrite L; exact D]. intros q Iq. apply I in Iq. apply in_neighbors in Iq. apply (wf_ends Wf Iq). Qed.
  Lemma has_dimension_total p d m : In p (g_nodes g) -> (1 <= d <= 3)%nat -> exists b u, fhas_dimension env per boxes fs g p d m = Ok (b, u).
  Proof. intros Ip D. unfold fhas_dimension. destruct (length p <? d)%nat; [eauto|]. assert (E : exists e, fexact_value d = Some e) by (clear - D; destruct d as [|[|[|[|d]]]]; [lia| | | |lia]; cbn [fexact_value]; eauto). destruct E as (e & ->). apply tuples_total; auto. intros t It. exact (tuples_in p d t (proj2 D) It). Qed.
  Lemma get_dimension_from_total p m n : forall d, In p (g_nodes g) -> (1 <= d)%nat -> (d + n <= 4)%nat -> exists k, fget_dimension_from env per boxes fs g p m n d = Ok k /\ (k <= 3)%nat.
  Proof. induction n as [|n IH]; intros d Ip D1 D2; cbn [fget_dimension_from].
    - exists (d - 1)%nat. split; [reflexivity|]. clear - D1 D2. lia.
    - destruct (has_dimension_total p d m Ip ltac:(clear - D1 D2; lia)) as (b & u & E). rewrite E. cbn [bind]. destruct b; [apply IH; auto; clear - D1 D2; lia|]. exists (d - 1)%nat. split; [reflexivity|]. clear - D1 D2. lia. Qed.
  (** a position without neighbours has dimension 0 *)
  Lemma lonely_dimension p m : neighbors g p = [] -> fget_dimension env per boxes fs g p 3 m = Ok 0%nat.
  Proof. intros N. unfold fget_dimension. cbn [fget_dimension_from]. assert (E : exists u, fhas_dimension env per boxes fs g p 1 m = Ok (false, u)).
    { unfold fhas_dimension. destruct (length p <? 1)%nat; [eauto|]. cbn [fexact_value]. assert (T : fe_tuples env g p 1 = []).
      { destruct Env as (_ & _ & _ & Tu & _). destruct (Tu g p 1%nat Wf) as (Ch & _). rewrite N in Ch. destruct (fe_tuples env g p 1) as [|t ts]; [reflexivity|]. apply Forall_inv in Ch. destruct Ch as (_ & I & L). destruct t as [|q t]; [discriminate|]. destruct (I q (or_introl eq_refl)). }
      rewrite T. cbn [fevaluate_tuples favg_gt]. eauto. }
    destruct E as (u & ->). reflexivity. Qed.
  Lemma dimension_total : g_nodes g <> [] -> exists o, fcalculate_dimension env per boxes fs g = Ok o /\ (forall d, o = Some d -> (d <= 3)%nat) /\ ((forall x y, ~ has_edge g x y) -> forall d, o = Some d -> d = 0%nat).
  Proof. intros Ne. unfold fcalculate_dimension. assert (Sh : Permutation (fe_shuffle env g (g_nodes g)) (g_nodes g)) by apply Env. set (sh := fe_shuffle env g (g_nodes g)) in *.
    assert (Nsh : sh <> []) by (intros X; apply Ne; apply Permutation_nil; rewrite <- X; exact Sh).
    destruct (fcount_total (fun d => (d <= 3)%nat /\ ((forall x y, ~ has_edge g x y) -> d = 0%nat)) (fun p => fget_dimension env per boxes fs g p 3 (Some 10%nat)) 5 ltac:(clear; lia) sh 0 []) as (o & E & Q).
    - intros p Ip. apply (Permutation_in _ Sh) in Ip. destruct (get_dimension_from_total p (Some 10%nat) 3 1 Ip ltac:(clear; lia) ltac:(clear; lia)) as (k & Ek & Lk). exists k. split; [exact Ek|]. split; [exact Lk|]. intros No.
      assert (Np : neighbors g p = []) by (destruct (neighbors g p) as [|q l] eqn:Eq; [reflexivity|]; exfalso; apply (No p q); apply in_neighbors; rewrite Eq; left; reflexivity).
      pose proof (lonely_dimension p (Some 10%nat) Np) as L0. unfold fget_dimension in L0. rewrite Ek in L0. injection L0 as ->. reflexivity.
    - auto.
    - intros k [].
    - right. exact Nsh.
    - exists o. split; [exact E|]. split; [intros d Ed; apply (Q d Ed)|]. intros No d Ed. apply (Q d Ed). exact No. Qed.
  Lemma average_total : g_nodes g <> [] -> exists a, faverage env per boxes (g_nodes g) = Ok a /\ length a = length boxes.
  Proof. intros Ne. unfold faverage. assert (Lc : forall l, length (fcolumn_avg env boxes l) = length boxes) by (intros l; unfold fcolumn_avg; rewrite map_length, seq_length; reflexivity). assert (Cs : per = true \/ per = false) by (clear; destruct per; auto). destruct Cs as [Ep|Ep]; [|exists (fcolumn_avg env boxes (g_nodes g)); split; [rewrite Ep; reflexivity|apply Lc]].
    assert (Mn := Mp). destruct (g_nodes g) as [|o l]; [congruence|]. destruct (vectors_ok (fun p => fvector per boxes o p) (o :: l)) as (vs & E & _ & _).
    { intros q Iq. destruct (vector_dist per boxes Gb Lb Hb o q (Mn o (or_introl eq_refl)) (Mn q Iq)) as (v & Ev & _ & Fv & _). exists v. auto. }
    rewrite E. cbn [bind]. eexists. split; [rewrite Ep; reflexivity|]. assert (Lo : length o = length boxes) by (destruct (Mn o (or_introl eq_refl)) as (G & _); clear - G; induction G; cbn; congruence).
    rewrite map2_length; [reflexivity|]. rewrite map2_length; [symmetry; exact Lo|]. rewrite Lc. exact Lo. Qed.
End Total.
