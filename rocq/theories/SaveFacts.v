(** Facts about saving. *)
From Coq Require Import String.
From Verif Require Import Base BaseFacts CoordSys SpecGeom CellList Values Container SpecContainer Queue Hdf5 SpecHdf5 Controller SpecSearch SaveFile SpecSave.
Open Scope list_scope.

Lemma put_same d p c : put d p c p = c.
Proof. unfold put. rewrite Nat.eqb_refl. reflexivity. Qed.
Lemma put_other d p c q : q <> p -> put d p c q = d q.
Proof. unfold put. destruct (q =? p)%nat eqn:E; [apply Nat.eqb_eq in E; congruence|auto]. Qed.
Lemma put_back d p c : d p = None -> forall q, put (put d p c) p None q = d q.
Proof. intros N q. destruct (Nat.eq_dec q p) as [-> |D]; [rewrite put_same; auto|rewrite !put_other; auto]. Qed.

(** a disk that agrees with [d] except at the temporary file *)
Definition only_temp (d d' : disk) (tmp : path) : Prop := forall q, q <> tmp -> d' q = d q.
Lemma only_temp_put d tmp c : only_temp d (put d tmp c) tmp.
Proof. intros q D. apply put_other. auto. Qed.
Lemma last_in {A} (l : list A) d : In (last l d) (d :: l).
Proof. induction l as [|a l IH]; [left; reflexivity|]. destruct l as [|b l]; [right; left; reflexivity|].
  change (last (a :: b :: l) d) with (last (b :: l) d). destruct IH as [H|H]; [left; exact H|right; right; exact H]. Qed.

Section Save.
  Variables (file : path) (env : save_env) (d : disk) (s : controller_state).
  Hypothesis V : valid_env file d env.
  Variables (tr : list disk) (d' : disk) (s' : controller_state) (o : res unit).
  Hypothesis E : save (Some file) env d s = (tr, (d', s', o)).

  Definition whole : option content := Some (Doc (enc_state (e_order env) s)).

  Lemma writing_temp tmp x : e_open env = Ok tmp -> In x (map (fun c => put d tmp (Some c)) (e_partial env)) -> only_temp d x tmp.
  Proof. intros _ H. apply in_map_iff in H as (c & <- & _). apply only_temp_put. Qed.

  (** shape of a disk met during the save: only the temporary file differs, or the
      renaming has happened *)
  Definition stage (x : disk) : Prop :=
    (forall q, x q = d q) \/ (exists tmp, e_open env = Ok tmp /\ only_temp d x tmp) \/ (forall q, x q = if (q =? file)%nat then whole else d q).

  Lemma last_stage tmp : e_open env = Ok tmp -> only_temp d (last (map (fun c => put d tmp (Some c)) (e_partial env)) (put d tmp (Some (Junk 0)))) tmp.
  Proof. intros O. destruct (last_in (map (fun c => put d tmp (Some c)) (e_partial env)) (put d tmp (Some (Junk 0)))) as [H|H]; [rewrite <- H; apply only_temp_put|eapply writing_temp; eauto]. Qed.

  Lemma renamed tmp : e_open env = Ok tmp -> forall q,
    put (put (put d tmp whole) file (put d tmp whole tmp)) tmp None q = if (q =? file)%nat then whole else d q.
  Proof. intros O q. destruct (ve_new _ _ _ V tmp O) as (N & D). rewrite put_same. destruct (Nat.eq_dec q tmp) as [-> |Dq].
    - rewrite put_same. destruct (tmp =? file)%nat eqn:X; [apply Nat.eqb_eq in X; congruence|auto].
    - rewrite put_other by auto. unfold put at 1. destruct (q =? file)%nat eqn:X; auto. apply put_other. auto. Qed.

  Lemma on_exception_stage tmp x e x' e' : e_open env = Ok tmp -> only_temp d x tmp -> on_exception env tmp x e = (x', e') ->
    only_temp d x' tmp /\ (is_exception e = true -> e_remove env = None -> e' = e /\ forall q, x' q = d q) /\
    (is_exception e = false -> e' = e).
  Proof. intros O T H. destruct (ve_new _ _ _ V tmp O) as (N & D). unfold on_exception in H. destruct (is_exception e) eqn:X.
    - destruct (e_remove env) eqn:R; injection H as <- <-.
      + split; auto. split; [discriminate|discriminate].
      + assert (A : forall q, put x tmp None q = d q). { intros q. destruct (Nat.eq_dec q tmp) as [-> |Dq]; [rewrite put_same; auto|rewrite put_other; auto]. }
        split; [intros q _; apply A|]. split; [auto|discriminate].
    - injection H as <- <-. split; auto. split; [discriminate|auto]. Qed.

  (** everything about one save *)
  Lemma save_facts :
    Forall stage tr /\ In d' tr /\
    match o with
    | Ok _ => (needs_saving s = false /\ d' = d /\ s' = s) \/
              (needs_saving s = true /\ s' = clear_needs_saving s /\ (forall q, d' q = if (q =? file)%nat then whole else d q))
    | Err e => needs_saving s = true /\ s' = s /\
               (is_exception e = true -> d' file = d file /\ (e_remove env = None -> forall q, d' q = d q)) 
    end.
  Proof. unfold save in E. destruct (needs_saving s) eqn:Ns; [|injection E as <- <- <- <-; split; [constructor; [left; auto|constructor]|split; [left; auto|left; auto]]].
    destruct (e_open env) as [tmp|e] eqn:O.
    2:{ injection E as <- <- <- <-. split; [constructor; [left; auto|constructor]|]. split; [left; auto|]. auto. }
    destruct (ve_new _ _ _ V tmp O) as (N & D).
    assert (S1 : Forall stage (d :: put d tmp (Some (Junk 0)) :: map (fun c => put d tmp (Some c)) (e_partial env))).
    { constructor; [left; auto|]. constructor; [right; left; exists tmp; split; auto; apply only_temp_put|]. apply Forall_forall. intros x Hx. right. left. exists tmp. split; auto. eapply writing_temp; eauto. }
    assert (Tf : forall x, only_temp d x tmp -> x file = d file) by (intros x T; apply T; auto).
    destruct (e_write env) as [e|] eqn:W.
    - destruct (on_exception env tmp _ e) as [x e'] eqn:X in E. injection E as <- <- <- <-.
      destruct (on_exception_stage tmp _ e x e' O (last_stage tmp O) X) as (A & B & C).
      split; [change (?a :: ?b :: ?c ++ ?l) with ((a :: b :: c) ++ l); apply Forall_app; split; auto; constructor; [right; left; exists tmp; auto|constructor]|].
      split; [change (?a :: ?b :: ?c ++ ?l) with ((a :: b :: c) ++ l); apply in_or_app; right; left; auto|]. split; auto. split; auto. intros Ie. split; [apply Tf; auto|]. intros Rm.
      destruct (is_exception e) eqn:Ex; [apply B; auto|]. rewrite (C eq_refl) in Ie. congruence.
    - fold whole in E. destruct (e_rename env) as [e|] eqn:Rn.
      + destruct (on_exception env tmp _ e) as [x e'] eqn:X in E. injection E as <- <- <- <-.
        destruct (on_exception_stage tmp _ e x e' O (only_temp_put d tmp whole) X) as (A & B & C).
        split; [change (?a :: ?b :: (?c ++ ?m) ++ ?l) with (((a :: b :: c) ++ m) ++ l)|].
        { rewrite Forall_app, Forall_app. split; [split; auto|]; (constructor; [|apply Forall_nil]); right; left; exists tmp; split; auto; apply only_temp_put. }
        split; [right; right; apply in_or_app; right; left; auto|]. split; auto. split; auto. intros Ie. split; [apply Tf; auto|]. intros Rm.
        destruct (is_exception e) eqn:Ex; [apply B; auto|]. rewrite (C eq_refl) in Ie. congruence.
      + assert (S2 : Forall stage (d :: put d tmp (Some (Junk 0)) :: map (fun c => put d tmp (Some c)) (e_partial env) ++
            [put d tmp whole; put (put (put d tmp whole) file (put d tmp whole tmp)) tmp None])).
        { change (?a :: ?b :: ?c ++ ?l) with ((a :: b :: c) ++ l). apply Forall_app. split; auto. constructor; [right; left; exists tmp; split; auto; apply only_temp_put|].
          constructor; [|constructor]. right. right. apply renamed. auto. }
        destruct (e_clear env) as [e|] eqn:Cl.
        * destruct (on_exception env tmp _ e) as [x e'] eqn:X in E. injection E as <- <- <- <-. pose proof (ve_clear _ _ _ V e Cl) as Ie.
          unfold on_exception in X. rewrite Ie in X. injection X as <- <-.
          split; [change (?a :: ?b :: (?c ++ ?m) ++ ?l) with ((a :: b :: c ++ m) ++ l); apply Forall_app; split; auto; constructor; [right; right; apply renamed; auto|constructor]|].
          split; [right; right; apply in_or_app; right; left; auto|]. split; auto. split; auto. congruence.
        * injection E as <- <- <- <-. split; auto. split; [right; right; apply in_or_app; right; right; left; auto|]. right. split; auto. split; auto. apply renamed. auto. Qed.
End Save.

Section Process.
  Variables (g : config) (file : path) (d0 : disk) (s0 : controller_state).
  (** the search as the model of whole searches sees it *)
  Definition with_file (f : option tree) (k : ctrl) : ctrl := mk_ctrl (k_state k) (k_tasks k) (k_phase k) (k_log k) f.

  Lemma step_file k ev k' f : (forall order, ev <> ESave order) -> step g k ev = Some k' -> step g (with_file f k) ev = Some (with_file f k').
  Proof. intros N. destruct ev as [pick|i r|i e|order| |pick]; cbn [step with_file k_phase k_tasks k_state k_log k_file]; intros H.
    - destruct (k_phase k); try discriminate. injection H as <-. unfold turn. cbn [with_file k_tasks k_state k_log k_file]. destruct (some_exception pick (exceptions (k_tasks k))); [reflexivity|].
      destruct (loop_condition (k_state k)); [|reflexivity]. destruct (fill _ _ _ _ _) as [[[a b] c] e]. reflexivity.
    - destruct (nth_error (k_tasks k) i) as [[sx [| |]]|]; try discriminate. injection H as <-. unfold finish_task. cbn [with_file k_tasks k_state k_log k_file k_phase].
      destruct (process_result g (k_state k) (k_log k) sx r) as [[a b] [e|]]; [reflexivity|]. destruct (set_finished (st_simplex a) sx); reflexivity.
    - destruct (nth_error (k_tasks k) i) as [[sx [| |]]|]; try discriminate. injection H as <-. reflexivity.
    - destruct (N order eq_refl).
    - injection H as <-. reflexivity.
    - destruct (k_phase k); try discriminate. destruct (pending (k_tasks k)); try discriminate. injection H as <-. reflexivity. Qed.

  Lemma reaches_step f k ev k' : reaches g s0 f k -> valid_event (g_cs g) ev -> step g k ev = Some k' -> reaches g s0 f k'.
  Proof. intros (evs & V & R) Ve St. exists (evs ++ [ev]). split; [apply Forall_app; auto|]. revert R. generalize (start s0 f) as k0. clear V.
    induction evs as [|a evs IH]; cbn; intros k0 R; [injection R as ->; rewrite St; auto|]. destruct (step g k0 a); [auto|discriminate]. Qed.

  Theorem process_reaches x : process g file d0 s0 x -> reaches g s0 (doc_of (d0 file)) (with_file (doc_of (x_disk x file)) (x_ctrl x)).
  Proof. induction 1 as [|d k ev k' _ IH Ve N St|d k env tr d' s' o _ IH Ve E Ne]; cbn [x_disk x_ctrl] in *.
    - exists []. split; [constructor|reflexivity].
    - eapply reaches_step; [exact IH|exact Ve|]. apply step_file; auto.
    - destruct (save_facts file env d (k_state k) Ve tr d' s' o E) as (_ & _ & F). destruct o as [u|e].
      + destruct F as [(_ & -> & ->)|(Ns & -> & F)]; [exact IH|]. apply (reaches_step _ _ (ESave (e_order env)) _ IH); [exact (ve_order _ _ _ Ve)|].
        cbn [step with_file k_state]. rewrite Ns. cbn [k_tasks k_phase k_log]. rewrite F, Nat.eqb_refl. reflexivity.
      + destruct F as (_ & -> & F). assert (Ie : is_exception e = true). { destruct e; try reflexivity. destruct (Ne n eq_refl). }
        destruct (F Ie) as (Fd & _). rewrite Fd. destruct k. exact IH. Qed.

  (** the contents of the save file, whatever happens *)
  Definition complete_file (c : option content) : Prop :=
    c = d0 file \/ exists k order, (forall l, Permutation (order l) l) /\ reaches g s0 (doc_of (d0 file)) k /\ c = Some (Doc (enc_state order (k_state k))).

  Lemma process_file x : process g file d0 s0 x -> complete_file (x_disk x file).
  Proof. intros H. induction H as [|d k ev k' Pr IH Ve N St|d k env tr d' s' o Pr IH Ve E Ne]; cbn [x_disk x_ctrl] in *; auto.
    - left. reflexivity.
    - pose proof (process_reaches _ Pr) as R. cbn [x_disk x_ctrl] in R.
      destruct (save_facts file env d (k_state k) Ve tr d' s' o E) as (S & I & _). rewrite Forall_forall in S. destruct (S d' I) as [A|[(tmp & O & T)|A]].
      + rewrite A. auto.
      + rewrite T; auto. destruct (ve_new _ _ _ Ve tmp O). auto.
      + right. exists (with_file (doc_of (d file)) k), (e_order env). split; [apply (ve_order _ _ _ Ve)|]. split; [exact R|]. rewrite A, Nat.eqb_refl. reflexivity. Qed.

  Lemma crash_file d : found_after_crash g file d0 s0 d -> complete_file (d file).
  Proof. intros [d1 k Pr|d1 k env tr [[d2 s2] o] d' Pr Ve E I]; [exact (process_file _ Pr)|].
    pose proof (process_file _ Pr) as C. cbn in C. pose proof (process_reaches _ Pr) as R. cbn [x_disk x_ctrl] in R.
    destruct (save_facts file env d1 (k_state k) Ve tr d2 s2 o E) as (S & _ & _). rewrite Forall_forall in S. destruct (S d' I) as [A|[(tmp & O & T)|A]].
    - rewrite A. auto.
    - rewrite T; auto. destruct (ve_new _ _ _ Ve tmp O). auto.
    - right. exists (with_file (doc_of (d1 file)) k), (e_order env). split; [apply (ve_order _ _ _ Ve)|]. split; [exact R|]. rewrite A, Nat.eqb_refl. reflexivity. Qed.
End Process.
