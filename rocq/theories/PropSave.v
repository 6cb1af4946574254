(** C34: the save file is always a complete snapshot. *)
From Coq Require Import String.
From Verif Require Import Base BaseFacts CoordSys SpecGeom CellList Values Container SpecContainer Queue Hdf5 SpecHdf5 Controller SpecSearch
  SaveFile SpecSave SaveFacts ContainerHist SearchRestart SearchExample PropSearch.
Open Scope list_scope.
Open Scope Qc_scope.

(** whenever the process dies, the save file is what it was at the beginning or a
    complete document of a state the search has had *)
Theorem C34_crash_leaves_complete_file : forall g file d0 s0 d, found_after_crash g file d0 s0 d ->
  d file = d0 file \/
  exists k order, (forall l, Permutation (order l) l) /\ reaches g s0 (doc_of (d0 file)) k /\ d file = Some (Doc (enc_state order (k_state k))).
Proof. intros g file d0 s0 d. apply crash_file. Qed.
Print Assumptions C34_crash_leaves_complete_file.

(** during one save the file is the old one or the new one, and no file other than
    it and the new temporary file changes *)
Theorem C34_old_or_new : forall file env d s tr r, valid_env file d env -> save (Some file) env d s = (tr, r) ->
  forall d', In d' tr ->
    (d' file = d file \/ d' file = Some (Doc (enc_state (e_order env) s))) /\
    forall q, q <> file -> e_open env <> Ok q -> d' q = d q.
Proof. intros file env d s tr [[d1 s1] o] V E d' I. destruct (save_facts file env d s V tr d1 s1 o E) as (S & _). rewrite Forall_forall in S.
  destruct (S d' I) as [A|[(tmp & O & T)|A]].
  - split; [left; apply A|]. intros; apply A.
  - destruct (ve_new _ _ _ V tmp O) as (N & D). split; [left; apply T; auto|]. intros q _ Nq. apply T. congruence.
  - split; [right; rewrite A, Nat.eqb_refl; reflexivity|]. intros q Nf _. rewrite A. destruct (q =? file)%nat eqn:X; [apply Nat.eqb_eq in X; congruence|auto]. Qed.
Print Assumptions C34_old_or_new.

(** a save that returns: the file holds the state, nothing else has changed (no
    temporary file is left), and the state counts as saved; if there is nothing to
    save or no save file is given, nothing happens *)
Theorem C34_success : forall file env d s tr d' s', valid_env file d env -> save (Some file) env d s = (tr, (d', s', Ok tt)) ->
  (needs_saving s = false -> d' = d /\ s' = s) /\
  (needs_saving s = true -> needs_saving s' = false /\ d' file = Some (Doc (enc_state (e_order env) s)) /\ forall q, q <> file -> d' q = d q).
Proof. intros file env d s tr d' s' V E. destruct (save_facts file env d s V tr d' s' (Ok tt) E) as (_ & _ & [(N & A & B)|(N & A & B)]).
  - split; [auto|congruence].
  - split; [congruence|]. intros _. split; [subst s'; reflexivity|]. split; [rewrite B, Nat.eqb_refl; reflexivity|]. intros q D. rewrite B. destruct (q =? file)%nat eqn:X; [apply Nat.eqb_eq in X; congruence|auto]. Qed.
Print Assumptions C34_success.
Theorem C34_no_file : forall env d s, save None env d s = ([d], (d, s, Ok tt)).
Proof. reflexivity. Qed.
Print Assumptions C34_no_file.

(** a save that raises an [Exception]: the file is unchanged and the state still
    counts as unsaved; if the temporary file could be deleted no file has changed *)
Theorem C34_failure : forall file env d s tr d' s' e, valid_env file d env -> save (Some file) env d s = (tr, (d', s', Err e)) ->
  (forall n, e <> BaseExn n) ->
  s' = s /\ needs_saving s' = true /\ d' file = d file /\ (e_remove env = None -> forall q, d' q = d q).
Proof. intros file env d s tr d' s' e V E Ne. destruct (save_facts file env d s V tr d' s' (Err e) E) as (_ & _ & N & A & F).
  assert (Ie : is_exception e = true). { destruct e; try reflexivity. destruct (Ne n eq_refl). }
  destruct (F Ie) as (B & C). subst s'. auto. Qed.
Print Assumptions C34_failure.

(** what the whole process does is what the model of searches describes, with the
    file as found on the disk *)
Theorem C34_saves_are_atomic : forall g file d0 s0 d k, process g file d0 s0 (mk_proc d k) ->
  reaches g s0 (doc_of (d0 file)) (mk_ctrl (k_state k) (k_tasks k) (k_phase k) (k_log k) (doc_of (d file))).
Proof. intros g file d0 s0 d k H. exact (process_reaches g file d0 s0 _ H). Qed.
Print Assumptions C34_saves_are_atomic.

(** dying at any moment and restarting with [load]: either the file is still the
    initial one, or the restarted search has all results, refined positions and
    unfinished simplices of a moment [k] of the interrupted one *)
Theorem C34_crash_and_restart : forall g rs ps Q P file d0 s0 d, good_config g -> good_start g s0 rs ps Q P ->
  Forall (own_position (g_cs g)) rs -> Forall (child_pos (g_cs g)) rs -> found_after_crash g file d0 s0 d ->
  d file = d0 file \/
  exists k t, reaches g s0 (doc_of (d0 file)) k /\ d file = Some (Doc t) /\
    forall order quiet mesh t', (forall l, Permutation (order l) l) -> same_file t t' ->
    exists s' Q' P' rs', create_state order (g_cs g) (g_gap g) (g_cutoff g) None true quiet (dec_state t') mesh false = Ok s' /\
      good_start g s' rs' (ps ++ refined (k_log k)) Q' P' /\
      cl_flat (c_nodes (st_result s')) = cl_flat (c_nodes (st_result (k_state k))) /\
      c_rejected (st_result s') = c_rejected (st_result (k_state k)) /\
      Permutation Q' (q_queued (st_simplex (k_state k)) ++ in_flight k) /\
      P' = q_queued (st_position (k_state k)).
Proof. intros g rs ps Q P file d0 s0 d GC GS OP CP F. destruct (crash_file g file d0 s0 d F) as [H|(k & order & O & R & H)]; [auto|]. right.
  exists k, (enc_state order (k_state k)). split; auto. split; auto. intros order' quiet mesh t' O' Sf.
  destruct (C35_restart g rs ps Q P s0 _ k GC GS R OP CP order order' quiet mesh t' O O' Sf) as (s' & Q' & P' & rs' & A & B & C & D & E & G & _).
  exists s', Q', P', rs'. auto 7. Qed.
Print Assumptions C34_crash_and_restart.

(** finding: an interrupt (not an [Exception]) while the file is written leaves the
    temporary file behind *)
Definition interrupted : save_env :=
  {| e_open := Ok 7%nat; e_partial := [Junk 1]; e_write := Some (BaseExn 0); e_order := fun l => l; e_rename := None; e_clear := None; e_remove := None |}.
Theorem C34_interrupt_leaves_temporary_file_refuted : forall d s, d 7%nat = None -> needs_saving s = true ->
  valid_env 1 d interrupted /\
  exists tr d', save (Some 1%nat) interrupted d s = (tr, (d', s, Err (BaseExn 0))) /\ d' 7%nat = Some (Junk 1) /\ d' 1%nat = d 1%nat.
Proof. intros d s N Ns. split.
  - constructor; cbn; [intros tmp [= <-]; split; [auto|discriminate]|intros l; apply Permutation_refl|discriminate].
  - unfold save. rewrite Ns. cbn. eexists _, _. split; [reflexivity|]. split; reflexivity. Qed.
Print Assumptions C34_interrupt_leaves_temporary_file_refuted.

(** the hypotheses are met: a search saves, goes on, and dies while the next save
    has written half of its temporary file; the file then holds the first save *)
Definition env1 : save_env :=
  {| e_open := Ok 7%nat; e_partial := [Junk 1; Junk 2]; e_write := None; e_order := fun l => l; e_rename := None; e_clear := None; e_remove := None |}.
Lemma process_events g file d0 s0 d evs : Forall (valid_event (g_cs g)) evs -> Forall (fun ev => forall order, ev <> ESave order) evs -> forall k k',
  process g file d0 s0 (mk_proc d k) -> run_events g k evs = Some k' -> process g file d0 s0 (mk_proc d k').
Proof. induction 1 as [|ev evs V _ IH]; intros N k k' P R; cbn in R; [injection R as <-; auto|]. inversion_clear N as [|? ? N1 N2]. destruct (step g k ev) as [k1|] eqn:St; [|discriminate].
  eapply IH; [exact N2| |exact R]. eapply process_event; eauto. Qed.
Definition resave (g : config) (evs : list event) : bool :=
  match ex_state with Ok s => match run_events g (start (clear_needs_saving s) None) evs with Some k => needs_saving (k_state k) | None => false end | Err _ => false end.
Lemma resave_inv g evs : resave g evs = true -> exists s k, ex_state = Ok s /\ run_events g (start (clear_needs_saving s) None) evs = Some k /\ needs_saving (k_state k) = true.
Proof. unfold resave. destruct ex_state as [s|]; [|discriminate]. destruct (run_events g (start (clear_needs_saving s) None) evs) as [k|] eqn:R; [|discriminate]. eauto. Qed.
Lemma resave_ok : resave (ex_g (Some ex_stencil) 2) stuck_events = true.
Proof. vm_compute. reflexivity. Qed.
Theorem C34_hypotheses_met : exists g Q s0 d, good_config g /\ good_start g s0 [] [] Q [] /\
  found_after_crash g 1 (fun _ => None) s0 d /\ d 1%nat = Some (Doc (enc_state (fun l => l) s0)) /\ d 7%nat = Some (Junk 1).
Proof. destruct (ex_started (Some ex_stencil) 2 (ex_config_std 2)) as (s & ss & Es & G & _).
  destruct (resave_inv _ _ resave_ok) as (s' & k & Es' & R & Nk). rewrite Es in Es'. injection Es' as <-.
  set (g := ex_g (Some ex_stencil) 2) in *. set (d0 := (fun _ => None) : disk).
  pose proof (gs_unsaved _ _ _ _ _ _ G) as Ns.
  assert (V : forall d, d 7%nat = None -> valid_env 1 d env1).
  { intros d N. constructor; cbn; [intros tmp [= <-]; split; [auto|discriminate]|intros l; apply Permutation_refl|discriminate]. }
  destruct (save (Some 1%nat) env1 d0 s) as [tr [[d s1] o]] eqn:E.
  assert (Ho : o = Ok tt /\ s1 = clear_needs_saving s /\ d 7%nat = None /\ d 1%nat = Some (Doc (enc_state (fun l => l) s))).
  { unfold save in E. rewrite Ns in E. cbn in E. injection E as _ <- <- <-. split; [reflexivity|]. split; [reflexivity|]. split; reflexivity. }
  destruct Ho as (-> & -> & N7 & N1).
  assert (P1 : process g 1 d0 s (mk_proc d (start (clear_needs_saving s) None))).
  { change (start (clear_needs_saving s) None) with (with_state (start s (doc_of (d0 1%nat))) (clear_needs_saving s)).
    eapply process_save; [apply process_start|apply V; reflexivity|exact E|discriminate]. }
  assert (P2 : process g 1 d0 s (mk_proc d k)).
  { eapply process_events; [| |exact P1|exact R]; repeat constructor; try (intros ? X; discriminate X). }
  destruct (save (Some 1%nat) env1 d (k_state k)) as [tr2 r] eqn:E2.
  exists g, (map norm_simplex ss), s, (put d 7 (Some (Junk 1))). split; [apply ex_config_std|]. split; [exact G|]. split; [|split; [rewrite put_other by discriminate; auto|apply put_same]].
  eapply crash_saving; [exact P2|apply V; auto|exact E2|]. unfold save in E2. rewrite Nk in E2. cbn in E2. injection E2 as <- _. right. right. left. reflexivity. Qed.
Print Assumptions C34_hypotheses_met.
