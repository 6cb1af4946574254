(** Concrete searches: a complete one, and ones that go wrong. *)
From Coq Require Import String.
From Verif Require Import Base BaseFacts CoordSys SpecGeom CoordSysFacts CellList Values Container SpecContainer ContainerFacts ContainerHist
  Queue QueueFacts SpecQueue Mesh SpecMesh MeshFacts Hdf5 SpecHdf5 NelderMead SpecMin NelderMeadExtra Controller SpecSearch SpecRun
  ControllerFacts ControllerSteps SearchFacts SearchProps SearchRestart SearchStart.
Open Scope list_scope.
Open Scope Qc_scope.

Definition q4 (a : Z) : Qc := Q2Qc (a # 40).
(** box [0,1), cutoff 1/10, stencil with one segment on each side *)
Definition ex_stencil : list simplex := [[[q4 8]; [q4 10]]; [[q4 (-8)]; [q4 (-10)]]].
Definition ex_g (st : option (list simplex)) (par : nat) : config :=
  mk_config (cs1 true) (Fin 0) (q4 4) st par true 0 0.
Definition ex_state : res controller_state :=
  create_state (fun l => l) (cs1 true) (Fin 0) (q4 4) None false true (Err IOError) [2%nat] false.
Definition nd (a v : Z) : result := mk_node [q4 a] (Fin (qc v)).
Definition ex_run (g : config) (evs : list event) : option ctrl :=
  match ex_state with Ok s => run_events g (start s None) evs | Err _ => None end.
Definition ex_events : list event :=
  [ETurn 0; EDone 0 (nd 5 0); EDone 1 (nd 25 1); ETurn 0; EDone 0 (nd 6 0); EDone 1 (nd (-5) 0);
   ESave (fun l => l); ETurn 0; EDone 0 (nd 26 1); ETurn 0; EGather 0].
Definition phase_code (k : ctrl) : nat := match k_phase k with Running => 0 | Draining => 1 | Returned => 2 | Raised KeyError => 3 | Raised TypeError => 4 | Raised (UserExn n) => 10 + n | Raised _ => 5 end.
Definition summary (k : ctrl) : list nat :=
  [phase_code k; List.length (started (k_log k)); List.length (discarded (k_log k)); List.length (recorded (k_log k));
   List.length (refined (k_log k)); List.length (cl_flat (c_nodes (st_result (k_state k)))); running_now k].
Definition ex_summary (g : config) (evs : list event) : option (list nat) := match ex_run g evs with Some k => Some (summary k) | None => None end.

Lemma ex_inv g evs l : ex_summary g evs = Some l -> exists s k, ex_state = Ok s /\ run_events g (start s None) evs = Some k /\ summary k = l.
Proof. unfold ex_summary, ex_run. intros H. destruct ex_state as [s|]; [|discriminate]. destruct (run_events g (start s None) evs) as [k|] eqn:R; [|discriminate].
  exists s, k. split; auto. split; auto. injection H as H. exact H. Qed.
Lemma phase_returned k : phase_code k = 2%nat -> k_phase k = Returned.
Proof. unfold phase_code. destruct (k_phase k) as [| | |[]]; intros; try discriminate; reflexivity. Qed.
Lemma phase_keyerror k : phase_code k = 3%nat -> k_phase k = Raised KeyError.
Proof. unfold phase_code. destruct (k_phase k) as [| | |[]]; intros; try discriminate; reflexivity. Qed.
Lemma phase_typeerror k : phase_code k = 4%nat -> k_phase k = Raised TypeError.
Proof. unfold phase_code. destruct (k_phase k) as [| | |[]]; intros; try discriminate; reflexivity. Qed.
Lemma summary_inv k a b c d e f h : summary k = [a; b; c; d; e; f; h] ->
  phase_code k = a /\ List.length (started (k_log k)) = b /\ List.length (discarded (k_log k)) = c /\ List.length (recorded (k_log k)) = d /\
  List.length (refined (k_log k)) = e /\ List.length (cl_flat (c_nodes (st_result (k_state k)))) = f /\ running_now k = h.
Proof. unfold summary. intros H. injection H as H0 H1 H2 H3 H4 H5 H6. repeat (split; [assumption|]). assumption. Qed.

Lemma ex_config st par : NoDup (map norm_simplex st) -> Forall (Forall (is_pos (cs1 true))) st -> good_config (ex_g (Some st) par).
Proof. intros N F. constructor; cbn.
  - apply cs1_wf.
  - left. reflexivity.
  - intros st' [= <-]. auto. Qed.
Lemma ex_config_std par : good_config (ex_g (Some ex_stencil) par).
Proof. apply ex_config; [|repeat constructor].
  assert (E : map norm_simplex ex_stencil = [[[q4 8]; [q4 10]]; [[q4 (-10)]; [q4 (-8)]]]) by (vm_compute; repeat f_equal; apply Qc_is_canon; reflexivity).
  rewrite E. constructor; [|repeat constructor; auto]. intros [H|[]]. apply (f_equal (fun s => eqb (hd 0 (hd [] s)) (q4 8))) in H. vm_compute in H. discriminate. Qed.

(** the full run returns *)
Lemma ex_complete : ex_summary (ex_g (Some ex_stencil) 2) ex_events = Some [2; 5; 1; 5; 2; 3; 0]%nat.
Proof. vm_compute. reflexivity. Qed.

Lemma ex_mesh : mesh_args (limits (cs1 true)) [2%nat].
Proof. split; [reflexivity|]. split; repeat constructor. Qed.
Lemma ex_started st par : good_config (ex_g st par) -> exists s ss, ex_state = Ok s /\ good_start (ex_g st par) s [] [] (map norm_simplex ss) [] /\ generate_mesh_simplices (limits (cs1 true)) [2%nat] true false = Ok ss.
Proof. intros GC. destruct (fresh_start (ex_g st par) (fun l => l) false (Err IOError) [2%nat] false GC ex_mesh (or_introl eq_refl)) as (ss & s & A & B & C).
  exists s, ss. auto. Qed.

Lemma ex_valid st par : Forall (valid_event (g_cs (ex_g st par))) ex_events.
Proof. repeat constructor; try exact (fun l => Permutation_refl l). Qed.

(** duplicate simplices in the stencil *)
Definition dup_stencil : list simplex := [[[q4 8]; [q4 10]]; [[q4 8]; [q4 10]]; [[q4 12]; [q4 13]]].
Definition dup_events : list event := [ETurn 0; EDone 0 (nd 5 0); EDone 1 (nd 25 1); ETurn 0].
Lemma dup_over_limit : ex_summary (ex_g (Some dup_stencil) 2) dup_events = Some [0; 5; 0; 2; 1; 1; 3]%nat.
Proof. vm_compute. reflexivity. Qed.
Lemma dup_keyerror : ex_summary (ex_g (Some dup_stencil) 2) (dup_events ++ [EDone 0 (nd 25 1); EDone 1 (nd 25 1); ETurn 0]) = Some [3; 5; 0; 4; 1; 1; 1]%nat.
Proof. vm_compute. reflexivity. Qed.

(** restart without stencil while a position waits for refinement *)
Definition stuck_events : list event := [ETurn 0; EDone 0 (nd 5 0)].
Definition restart_with (g g' : config) (evs : list event) : option (list nat * nat * nat) :=
  match ex_run g evs with
  | Some k =>
    match create_state (fun l => l) (g_cs g) (g_gap g) (g_cutoff g) (Some (k_state k)) false false (Err IOError) [2%nat] false with
    | Ok s => match run_events g' (start s None) [ETurn 0] with
              | Some k' => Some (summary k', List.length (q_queued (st_position s)), List.length (q_queued (st_position (k_state k'))))
              | None => None end
    | Err _ => None
    end
  | None => None
  end.
Lemma restart_inv g g' evs l a b : restart_with g g' evs = Some (l, a, b) -> exists s1 k0 s k, ex_state = Ok s1 /\ run_events g (start s1 None) evs = Some k0 /\
  create_state (fun l => l) (g_cs g) (g_gap g) (g_cutoff g) (Some (k_state k0)) false false (Err IOError) [2%nat] false = Ok s /\
  run_events g' (start s None) [ETurn 0] = Some k /\ summary k = l /\ List.length (q_queued (st_position s)) = a /\ List.length (q_queued (st_position (k_state k))) = b.
Proof. unfold restart_with, ex_run. intros H. destruct ex_state as [s1|]; [|discriminate]. destruct (run_events g (start s1 None) evs) as [k0|] eqn:R; [|discriminate].
  destruct (create_state _ _ _ _ _ _ _ _ _ _) as [s|] eqn:C; [|discriminate]. destruct (run_events g' (start s None) [ETurn 0]) as [k|] eqn:R1; [|discriminate].
  injection H as H0 H1 H2. exists s1, k0, s, k. repeat (split; [assumption || reflexivity|]). assumption. Qed.
Lemma stuck : restart_with (ex_g (Some ex_stencil) 2) (ex_g None 2) stuck_events = Some ([4; 1; 0; 0; 0; 1; 1], 1, 0)%nat.
Proof. vm_compute. reflexivity. Qed.

(** no minimization allowed: nothing ever happens *)
Lemma spins g evs : g_parallel g = 0%nat -> forall k k', k_phase k = Running -> k_tasks k = [] -> loop_condition (k_state k) = true ->
  run_events g k evs = Some k' -> k_phase k' = Running /\ k_tasks k' = [] /\ k_log k' = k_log k.
Proof. intros P0. induction evs as [|ev evs IH]; intros k k' Ph T L R; cbn [run_events] in R; [injection R as <-; auto|].
  destruct (step g k ev) as [k1|] eqn:St; [|discriminate].
  assert (X : k_phase k1 = Running /\ k_tasks k1 = [] /\ loop_condition (k_state k1) = true /\ k_log k1 = k_log k).
  { destruct ev as [pick|i r|i e|order| |pick]; cbn [step] in St; rewrite ?T, ?Ph in St.
    - injection St as <-. unfold turn. rewrite T. cbn [exceptions flat_map some_exception pending filter]. rewrite L. unfold fill_fuel. cbn [fill]. rewrite P0.
      destruct (num_running (st_simplex (k_state k)) <? 0)%nat eqn:N; [apply Nat.ltb_lt in N; lia|]. cbn. auto.
    - destruct i; discriminate.
    - destruct i; discriminate.
    - destruct (needs_saving (k_state k)); injection St as <-; cbn; auto.
    - injection St as <-. auto.
    - discriminate. }
  destruct X as (A & B & C & D). destruct (IH k1 k' A B C R) as (E & F & G). rewrite D in G. auto. Qed.

(** ** A finite run that returned is a fair run (followed by idling) *)
Lemma run_events_app g evs evs' : forall k k', run_events g k (evs ++ evs') = Some k' -> exists k1, run_events g k evs = Some k1 /\ run_events g k1 evs' = Some k'.
Proof. induction evs as [|e evs IH]; cbn; intros k k' R; [eauto|]. destruct (step g k e); [eauto|discriminate]. Qed.
Lemma run_events_snoc g evs e : forall k k1 k', run_events g k evs = Some k1 -> step g k1 e = Some k' -> run_events g k (evs ++ [e]) = Some k'.
Proof. induction evs as [|a evs IH]; cbn; intros k k1 k' R St; [injection R as ->; rewrite St; auto|]. destruct (step g k a); [eauto|discriminate]. Qed.

Section Finite.
  Variables (g : config) (rs : list result) (ps : list point) (Q : list simplex) (P : list point) (s : controller_state) (file : option tree).
  Variables (evs : list event) (pick : nat) (kf : ctrl).
  Hypothesis GC : good_config g.
  Hypothesis GS : good_start g s rs ps Q P.
  Hypothesis V : Forall (valid_event (g_cs g)) (evs ++ [EGather pick]).
  Hypothesis R : run_events g (start s file) (evs ++ [EGather pick]) = Some kf.
  Hypothesis Ph : k_phase kf = Returned.
  Let all := evs ++ [EGather pick].
  Definition fin_k (i : nat) : ctrl := match run_events g (start s file) (firstn i (evs ++ [EGather pick])) with Some k => k | None => start s file end.
  Definition fin_ev (i : nat) : event := nth i (evs ++ [EGather pick]) ESaveFailed.
  Lemma fin_run i : run_events g (start s file) (firstn i all) = Some (fin_k i).
  Proof. unfold fin_k. fold all. pose proof R as R'. fold all in R'. rewrite <- (firstn_skipn i all) in R'. apply run_events_app in R' as (k1 & E & _). rewrite E. reflexivity. Qed.
  Lemma firstn_snoc {A} (l : list A) i d : (i < List.length l)%nat -> firstn (Datatypes.S i) l = firstn i l ++ [nth i l d].
  Proof. revert l. induction i as [|i IH]; intros [|a l] L; cbn in L; try lia; [reflexivity|]. cbn [firstn nth app]. f_equal. apply IH. lia. Qed.
  Lemma fin_last i : (List.length all <= i)%nat -> fin_k i = kf.
  Proof. intros L. pose proof (fin_run i) as X. rewrite firstn_all2 in X by auto. unfold all in X. rewrite R in X. injection X as <-. reflexivity. Qed.
  Lemma finite_fair : fair_run g s file fin_k fin_ev.
  Proof. assert (Rk : reaches g s file kf) by (exists all; auto).
    destruct (complete g rs ps Q P s file kf GC GS Rk (or_introl Ph)) as (_ & _ & _ & T).
    constructor.
    - reflexivity.
    - intros i. destruct (Nat.lt_ge_cases i (List.length all)) as [L|L].
      + split; [rewrite Forall_forall in V; apply V; apply nth_In; auto|].
        pose proof (fin_run (Datatypes.S i)) as X. rewrite (firstn_snoc all i ESaveFailed L) in X. apply run_events_app in X as (k1 & E1 & E2). rewrite fin_run in E1. injection E1 as <-.
        cbn [run_events] in E2. unfold fin_ev. fold all. destruct (step g (fin_k i) (nth i all ESaveFailed)); [|discriminate]. injection E2 as ->. reflexivity.
      + unfold fin_ev. fold all. rewrite nth_overflow by auto. split; [exact I|]. rewrite !fin_last by lia. reflexivity.
    - intros i x _. exists (i + List.length all)%nat. split; [lia|]. rewrite fin_last by lia. unfold unfinished. rewrite T. auto.
    - intros i _. exists (i + List.length all)%nat, 0%nat. split; [lia|]. rewrite fin_last by lia. rewrite Ph. discriminate.
    - intros i Pi. destruct (Nat.lt_ge_cases i (List.length all)) as [L|L]; [|rewrite fin_last, Ph in Pi by auto; discriminate].
      exists (List.length evs), pick. unfold all in L. rewrite app_length in L. cbn in L. split; [lia|]. unfold fin_ev. rewrite app_nth2, Nat.sub_diag by lia. reflexivity. Qed.
End Finite.

(** ** A search on a potential: f(x) = d (1 - d), d the fractional part of x *)
Definition par_f (y : point) : fval := Fin (let d := hd 0 (normalize_position (cs1 true) y) in d * (1 - d)).
Definition par_p : nm_params := {| p_xtol := q4 1; p_ftol := Fin (q4 1); p_maxiter := Some 30%nat; p_maxfev := Some 60%nat; p_fprime := None; p_keep := false |}.
Definition par_g : config := mk_config (cs1 true) (Fin (q4 1)) (q4 4) None 1 true 0 0.
Definition par_x : simplex := [[q4 0]; [q4 20]].
Definition par_min : res (result * option world * world) := run_minimization stable_argsort (fun _ y => Ok (par_f y)) None par_p par_x.
Definition check_search (g : config) (x : simplex) (mn : res (result * option world * world)) : option (list nat * bool) :=
  match create_state (fun l => l) (g_cs g) (g_gap g) (g_cutoff g) None false true (Err IOError) [1%nat] false, mn with
  | Ok s, Ok (r, _, _) =>
    match run_events g (start s None) [ETurn 0; EDone 0 r; ETurn 0; EGather 0] with
    | Some k => Some (summary k, match step g (start s None) (ETurn 0) with Some k1 => eqb (map t_simplex (k_tasks k1)) [x] | None => false end)
    | None => None end
  | _, _ => None
  end.
Lemma check_inv g x mn l : check_search g x mn = Some (l, true) -> exists s r ow w k1 k2 k3 k,
  create_state (fun l => l) (g_cs g) (g_gap g) (g_cutoff g) None false true (Err IOError) [1%nat] false = Ok s /\ mn = Ok (r, ow, w) /\
  step g (start s None) (ETurn 0) = Some k1 /\ step g k1 (EDone 0 r) = Some k2 /\ step g k2 (ETurn 0) = Some k3 /\ step g k3 (EGather 0) = Some k /\
  summary k = l /\ map t_simplex (k_tasks k1) = [x].
Proof. unfold check_search. intros H. destruct (create_state _ _ _ _ _ _ _ _ _ _) as [s|]; [|discriminate]. destruct mn as [[[r ow] w]|]; [|discriminate].
  cbn [run_events] in H. destruct (step g (start s None) (ETurn 0)) as [k1|] eqn:S1; [|discriminate].
  destruct (step g k1 (EDone 0 r)) as [k2|] eqn:S2; [|discriminate]. destruct (step g k2 (ETurn 0)) as [k3|] eqn:S3; [|discriminate].
  destruct (step g k3 (EGather 0)) as [k|] eqn:S4; [|discriminate]. injection H as H0 H1. unfold eqb in H1. destruct (eq_dec (map t_simplex (k_tasks k1)) [x]); [|discriminate].
  exists s, r, ow, w, k1, k2, k3, k. repeat (split; [assumption || reflexivity|]). assumption. Qed.
Lemma par_ok : check_search par_g par_x par_min = Some ([2; 1; 0; 1; 0; 1; 0]%nat, true).
Proof. vm_compute. reflexivity. Qed.
