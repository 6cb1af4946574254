(** For properties whose own file only has unnamed examples: concrete, non-trivial
    cases that meet the hypotheses of the theorems, by property number. *)
From Coq Require Import Reals String.
From Verif Require Import Base BaseFacts CoordSys SpecGeom CoordSysFacts CoordSysR CellList Values Container SpecContainer ContainerFacts ContainerHist
  Queue QueueFacts SpecQueue Mesh SpecMesh Hdf5 SpecHdf5 Hdf5Facts NelderMead SpecMin NelderMeadFacts NelderMeadExtra Controller SpecSearch SpecRun
  ControllerFacts ControllerSteps SearchFacts SearchProps SearchRestart SearchStart SearchEnd SearchExample.
From Verif Require Import Graph SpecGraph SpecCluster Cluster Dimension SpecDim.
From Verif Require PropGeom PropContainer PropQueue PropMesh PropMin PropSearch PropCluster PropDim Stencil SpecStencil PropStencil.
Open Scope list_scope.
Open Scope Qc_scope.

Ltac qcomp := first [vm_compute; reflexivity |
  vm_compute; repeat match goal with |- _ :: _ = _ :: _ => apply f_equal2 | |- Ok _ = Ok _ => apply f_equal | |- [] = [] => reflexivity | |- @eq Qc _ _ => apply Qc_is_canon; reflexivity end].

(** ** Coordinate systems: the box [-1,1] x [2,5], with limits given in either order,
    a point far outside and its image inside *)
Theorem C01_hypotheses_met : forall per, wf_box (PropGeom.ex_cs per) /\ is_pos (PropGeom.ex_cs per) [qc 7; qc (-3)] /\
  normalize_position (PropGeom.ex_cs true) [qc 7; qc (-3)] = [qc (-1); qc 3] /\
  normalize_position (PropGeom.ex_cs true) [qc 7; qc (-3)] <> [qc 7; qc (-3)] /\
  lattice_eq (PropGeom.ex_cs true) [qc 7; qc (-3)] [qc (-1); qc 3] /\ in_box (PropGeom.ex_cs true) [qc (-1); qc 3].
Proof. intros per. split; [apply PropGeom.ex_cs_wf|]. split; [reflexivity|]. split; [exact PropGeom.ex_normalize|].
  split; [rewrite PropGeom.ex_normalize; discriminate|]. split; [exact PropGeom.ex_lattice|].
  rewrite <- PropGeom.ex_normalize. apply (proj1 (PropGeom.C01_normalize_position (PropGeom.ex_cs true) [qc 7; qc (-3)] (PropGeom.ex_cs_wf true) eq_refl) eq_refl). Qed.
Print Assumptions C01_hypotheses_met.
Theorem C02_hypotheses_met : wf_box (PropGeom.ex_cs true) /\ is_pos (PropGeom.ex_cs true) [qc 7; qc (-3)] /\
  get_frac (PropGeom.ex_cs true) [qc 7; qc (-3)] = [qc 0; Q2Qc (1 # 3)] /\
  get_frac (PropGeom.ex_cs false) [qc 7; qc (-3)] = [qc 4; Q2Qc (-5 # 3)] /\
  get_pos (PropGeom.ex_cs true) [qc 0; Q2Qc (1 # 3)] = [qc (-1); qc 3].
Proof. split; [apply PropGeom.ex_cs_wf|]. split; [reflexivity|]. split; [qcomp|]. split; qcomp. Qed.
Print Assumptions C02_hypotheses_met.
(** distance sqrt 2 through the boundary, sqrt 74 without periodicity *)
Theorem C03_hypotheses_met : forall per, wf_box (PropGeom.ex_cs per) /\ is_pos (PropGeom.ex_cs per) [qc 0; qc 2] /\ is_pos (PropGeom.ex_cs per) [qc 7; qc (-3)] /\
  dist_lt (PropGeom.ex_cs true) [qc 0; qc 2] [qc 7; qc (-3)] (Q2Qc (3 # 2)) = true /\
  dist_le (PropGeom.ex_cs true) [qc 0; qc 2] [qc 7; qc (-3)] (Q2Qc (7 # 5)) = false /\
  dist_lt (PropGeom.ex_cs false) [qc 0; qc 2] [qc 7; qc (-3)] (qc 8) = false /\
  dist_sq (PropGeom.ex_cs true) [qc 0; qc 2] [qc 7; qc (-3)] = qc 2 /\ dist_sq (PropGeom.ex_cs false) [qc 0; qc 2] [qc 7; qc (-3)] = qc 74.
Proof. intros per. split; [apply PropGeom.ex_cs_wf|]. split; [reflexivity|]. split; [reflexivity|].
  repeat (split; [qcomp|]). qcomp. Qed.
Print Assumptions C03_hypotheses_met.
Theorem C04_hypotheses_met : forall per, wf_box (PropGeom.ex_cs per) /\ is_pos (PropGeom.ex_cs per) [qc 0; qc 2] /\ is_pos (PropGeom.ex_cs per) [qc 7; qc (-3)] /\
  is_pos (PropGeom.ex_cs per) [half; qc 4] /\ lattice_eq (PropGeom.ex_cs true) [qc 7; qc (-3)] [qc (-1); qc 3] /\
  [qc 7; qc (-3)] <> [qc (-1); qc 3] /\ distance (PropGeom.ex_cs true) [qc 7; qc (-3)] [qc (-1); qc 3] = 0%R /\
  distance (PropGeom.ex_cs true) [qc 7; qc (-3)] [half; qc 4] <> 0%R.
Proof. intros per. split; [apply PropGeom.ex_cs_wf|]. repeat (split; [reflexivity|]). split; [exact PropGeom.ex_lattice|]. split; [discriminate|].
  pose proof (PropGeom.ex_cs_wf true) as W. split.
  - apply PropGeom.C04_zero; auto; try reflexivity. exact PropGeom.ex_lattice.
  - intros Z. apply PropGeom.C04_zero in Z; auto; try reflexivity. cbn [periodic PropGeom.ex_cs coordinate_system] in Z.
    apply PropGeom.C01_normalize_canonical in Z; auto; try reflexivity. apply (f_equal (map (fun c => eqb c half))) in Z. vm_compute in Z. discriminate. Qed.
Print Assumptions C04_hypotheses_met.
Theorem C05_hypotheses_met : wf_box (PropGeom.ex_cs true) /\ is_pos (PropGeom.ex_cs true) [qc 0; qc 2] /\ is_pos (PropGeom.ex_cs true) [qc 7; qc (-3)] /\
  connecting_vector (PropGeom.ex_cs true) [qc 0; qc 2] [qc 7; qc (-3)] = Ok [qc 1; qc 1] /\
  connecting_vector (PropGeom.ex_cs false) [qc 0; qc 2] [qc 7; qc (-3)] = Ok [qc 7; qc (-5)].
Proof. split; [apply PropGeom.ex_cs_wf|]. split; [reflexivity|]. split; [reflexivity|]. split; qcomp. Qed.
Print Assumptions C05_hypotheses_met.
(** two points around the boundary of the first coordinate *)
Theorem C06_hypotheses_met : exists ps, wf_box (PropGeom.ex_cs true) /\ periodic (PropGeom.ex_cs true) = true /\ Forall (is_pos (PropGeom.ex_cs true)) ps /\ ps <> [] /\
  (forall p q, In p ps -> In q ps -> within_half (PropGeom.ex_cs true) p q) /\
  average (PropGeom.ex_cs true) ps = Ok [Q2Qc (1 # 4); Q2Qc (5 # 2)] /\ average (PropGeom.ex_cs false) ps = Ok [Q2Qc (1 # 4); Q2Qc (5 # 2)].
Proof. exists [[qc 0; qc 2]; [half; qc 3]]. split; [apply PropGeom.ex_cs_wf|]. split; [reflexivity|]. split; [repeat constructor|]. split; [discriminate|].
  split; [exact PropGeom.ex_tight|]. split; qcomp. Qed.
Print Assumptions C06_hypotheses_met.

(** ** Result container: two nodes (one beyond the boundary), a rejected result and a
    refined position in a periodic box *)
Theorem C07_hypotheses_met : exists c p r q, wf_box PropContainer.ex_cs2 /\ history PropContainer.ex_cs2 (Fin 1) 1 PropContainer.ex_rs [[qc 2; qc 2]] c /\
  lookup_complete PropContainer.ex_cs2 1 /\ is_pos PropContainer.ex_cs2 p /\ In r PropContainer.ex_rs /\ is_node (Fin 1) r = true /\
  pos_of (stored PropContainer.ex_cs2 r) <> p /\ dist_lt PropContainer.ex_cs2 p (pos_of r) 1 = true /\
  is_pos PropContainer.ex_cs2 q /\ dist_lt PropContainer.ex_cs2 q [qc 2; qc 2] 1 = true.
Proof. destruct PropContainer.ex_hist as (c & H & W & L & _). exists c, [qc (-1) + half; qc 0], (mk_node [qc 0; qc 0] (Fin half)), [qc 6; qc (-2)].
  split; auto. split; auto. split; auto. split; [reflexivity|]. split; [right; right; left; reflexivity|]. split; [qcomp|]. split.
  - intros E. apply (f_equal (fun p => eqb (hd 0 p) 0)) in E. vm_compute in E. discriminate.
  - split; [qcomp|]. split; [reflexivity|]. qcomp. Qed.
Print Assumptions C07_hypotheses_met.
Theorem C08_hypotheses_met : exists c p ns, wf_box PropContainer.ex_cs2 /\ history PropContainer.ex_cs2 (Fin 1) 1 PropContainer.ex_rs [[qc 2; qc 2]] c /\
  is_pos PropContainer.ex_cs2 p /\ lookup_unique PropContainer.ex_cs2 1 /\ get_neighbours c p = Ok ns /\ List.length ns = 2%nat.
Proof. destruct PropContainer.ex_hist as (c & H & W & _ & L).
  destruct PropContainer.ex_query as (c0 & E & _). pose proof (@hist_new PropContainer.ex_cs2 (Fin 1) 1 PropContainer.ex_rs [[qc 2; qc 2]] c0 E) as H0.
  exists c0, [half; qc 0]. eexists. split; auto. split; [apply H0; repeat constructor|]. split; [reflexivity|]. split; auto.
  vm_compute in E. injection E as <-. split; qcomp. Qed.
Print Assumptions C08_hypotheses_met.
Theorem C09_hypotheses_met : exists c, wf_box PropContainer.ex_cs2 /\ Forall (fun r => is_pos PropContainer.ex_cs2 (pos_of r)) PropContainer.ex_rs /\
  history PropContainer.ex_cs2 (Fin 1) 1 PropContainer.ex_rs [[qc 2; qc 2]] c /\
  is_pos PropContainer.ex_cs2 (pos_of (mk_node [qc (-7); qc 12] PInf)) /\ is_pos PropContainer.ex_cs2 [qc 100; half].
Proof. destruct PropContainer.ex_hist as (c & H & W & _). exists c. split; auto. split; [repeat constructor|]. split; auto. split; reflexivity. Qed.
Print Assumptions C09_hypotheses_met.
Theorem C10_hypotheses_met : exists c, wf_box PropContainer.ex_cs2 /\ history PropContainer.ex_cs2 (Fin 1) 1 PropContainer.ex_rs [[qc 2; qc 2]] c /\
  map pos_of (cl_flat (c_nodes c)) = [[qc 1; qc 0]; [qc 0; qc 0]] /\ map value_of (c_rejected c) = [Fin (qc 7)] /\ cl_flat (c_refined c) = [[qc 2; qc 2]].
Proof. destruct PropContainer.ex_hist as (c & H & W & _). exists c. split; auto. split; auto.
  destruct (PropContainer.C10_classification _ _ _ _ _ _ W H) as (A & B & C & _). rewrite A, B, C. split; [qcomp|]. split; qcomp. Qed.
Print Assumptions C10_hypotheses_met.
(** the potential is infinite near a node and zero elsewhere *)
Theorem C25_hypotheses_met : exists c, wf_box PropContainer.ex_cs2 /\ history PropContainer.ex_cs2 (Fin 1) 1 PropContainer.ex_rs [[qc 2; qc 2]] c /\
  lookup_complete PropContainer.ex_cs2 1 /\ is_pos PropContainer.ex_cs2 [half; qc 0] /\ is_pos PropContainer.ex_cs2 [qc 2; qc 2] /\ half <= 1 /\
  fake_potential c 1 [qc (-1) + half; qc 0] = Ok PInf /\ fake_potential c half [qc 2; qc 2] = Ok (Fin 0).
Proof. destruct PropContainer.ex_hist as (_ & _ & W & L & _). destruct PropContainer.ex_query as (c & E & _ & _ & _ & F & _). exists c. split; auto.
  split; [apply hist_new; auto; repeat constructor|]. split; auto. split; [reflexivity|]. split; [reflexivity|]. split; [vm_compute; discriminate|]. split; auto.
  vm_compute in E. injection E as <-. qcomp. Qed.
Print Assumptions C25_hypotheses_met.
Theorem C38_hypotheses_met : exists c, wf_box PropContainer.ex_cs2 /\ history PropContainer.ex_cs2 (Fin 1) 1 PropContainer.ex_rs [[qc 2; qc 2]] c /\
  lookup_complete PropContainer.ex_cs2 1 /\ lookup_unique PropContainer.ex_cs2 1 /\ Forall (is_pos PropContainer.ex_cs2) [[qc 4; half]; [qc 2; qc 2]] /\
  check_simplex c 1 0 [[qc 4; half]; [qc 2; qc 2]] = Ok false /\ check_simplex c 1 1 [[qc 4; half]; [qc 2; qc 2]] = Ok true /\
  check_pos_refinement c 1 0 [qc 6; qc (-2)] = Ok false /\ check_pos_refinement c 1 1 [qc 6; qc (-2)] = Ok true.
Proof. destruct PropContainer.ex_hist as (_ & _ & W & L & U). destruct PropContainer.ex_query as (c & E & _ & _ & _ & _ & F & G). exists c. split; auto.
  split; [apply hist_new; auto; repeat constructor|]. split; auto. split; auto. split; [repeat constructor|]. split; auto. split; auto.
  vm_compute in E. injection E as <-. split; qcomp. Qed.
Print Assumptions C38_hypotheses_met.

(** ** Queues: a simplex added three times, with its vertices in different orders, and
    another one *)
Theorem C12_hypotheses_met : exists q, NoDup (map norm_simplex [PropQueue.ex_s1]) /\
  batches_nodup norm_simplex [QAdd [PropQueue.ex_s2; PropQueue.ex_s3]; QPop; QFinish (norm_simplex PropQueue.ex_s1); QAdd [PropQueue.ex_s1]; QPop] /\
  run_qops norm_simplex (queue_new norm_simplex [PropQueue.ex_s1])
    [QAdd [PropQueue.ex_s2; PropQueue.ex_s3]; QPop; QFinish (norm_simplex PropQueue.ex_s1); QAdd [PropQueue.ex_s1]; QPop]
    = Ok (q, [norm_simplex PropQueue.ex_s1; norm_simplex PropQueue.ex_s3]) /\ q_queued q = [].
Proof. destruct PropQueue.ex_run as (q & E & N). exists q. destruct PropQueue.ex_batches as (A & B). auto. Qed.
Print Assumptions C12_hypotheses_met.
Theorem C13_hypotheses_met : Permutation PropQueue.ex_s1 PropQueue.ex_s2 /\ PropQueue.ex_s1 <> PropQueue.ex_s2 /\
  norm_simplex PropQueue.ex_s1 = norm_simplex PropQueue.ex_s2 /\ norm_simplex PropQueue.ex_s1 <> norm_simplex PropQueue.ex_s3.
Proof. destruct PropQueue.ex_same as (A & B). split; [apply PropQueue.C13_vertex_order_irrelevant; exact A|]. split; [discriminate|]. split; assumption. Qed.
Print Assumptions C13_hypotheses_met.
Theorem C14_hypotheses_met : exists q, (forall x : simplex, norm_simplex (norm_simplex x) = norm_simplex x) /\
  (forall l : list simplex, Permutation (rev l) l) /\
  NoDup (map norm_simplex [PropQueue.ex_s1]) /\ batches_nodup norm_simplex [QAdd [PropQueue.ex_s2; PropQueue.ex_s3]; QPop] /\
  run_qops norm_simplex (queue_new norm_simplex [PropQueue.ex_s1]) [QAdd [PropQueue.ex_s2; PropQueue.ex_s3]; QPop] = Ok (q, [norm_simplex PropQueue.ex_s1]) /\
  objects (fun l => rev l) q = [norm_simplex PropQueue.ex_s1; norm_simplex PropQueue.ex_s3].
Proof. destruct PropQueue.ex_batches as (A & B).
  assert (B' : batches_nodup norm_simplex [QAdd [PropQueue.ex_s2; PropQueue.ex_s3]; QPop]) by (destruct B as (B & _); split; [exact B|]; repeat constructor).
  destruct (run_qops norm_simplex (queue_new norm_simplex [PropQueue.ex_s1]) [QAdd [PropQueue.ex_s2; PropQueue.ex_s3]; QPop]) as [[q ps]|] eqn:E; [|vm_compute in E; discriminate].
  exists q. split; [exact PropQueue.C13_normal_form_stable|]. split; [intros l; apply Permutation_sym, Permutation_rev|]. split; auto. split; auto.
  vm_compute in E. injection E as <- <-. split; [f_equal; f_equal|]; qcomp. Qed.
Print Assumptions C14_hypotheses_met.

(** ** Mesh and stencils *)
Theorem C15_hypotheses_met : PropMesh.mesh_example_limits <> [] /\ mesh_args PropMesh.mesh_example_limits [2; 3]%nat /\
  exists ss ss', generate_mesh_simplices PropMesh.mesh_example_limits [2; 3]%nat false false = Ok ss /\ List.length ss = 6%nat /\
    generate_mesh_simplices PropMesh.mesh_example_limits [2; 3]%nat true false = Ok ss' /\ List.length ss' = 6%nat.
Proof. destruct PropMesh.mesh_example_ok as (A & ss & E & L). split; [discriminate|]. split; auto. exists ss. eexists. split; auto. split; auto. split; reflexivity. Qed.
Print Assumptions C15_hypotheses_met.
Theorem C16_hypotheses_met : exists ss ss' x, mesh_args PropMesh.mesh_example_limits [2; 3]%nat /\ Forall (fun m => (2 <= m)%nat) [2; 3]%nat /\
  (forall i, (i < List.length PropMesh.mesh_example_limits)%nat -> nth_lo PropMesh.mesh_example_limits i <= nth i x 0 /\ nth i x 0 <= nth_hi PropMesh.mesh_example_limits i) /\
  generate_mesh_simplices PropMesh.mesh_example_limits [2; 3]%nat false false = Ok ss /\
  generate_mesh_simplices PropMesh.mesh_example_limits [2; 3]%nat true false = Ok ss'.
Proof. destruct PropMesh.mesh_example_ok as (A & ss & E & L). exists ss. eexists. exists [half; half]. split; auto. split; [repeat constructor|].
  split; [|split; [auto|reflexivity]]. intros [|[|i]] Hi; [split; vm_compute; discriminate..|cbn in Hi; lia]. Qed.
Print Assumptions C16_hypotheses_met.
Theorem C17_hypotheses_met : SpecStencil.qr_ok Stencil.lapack_qr /\ (exists s, In s (Stencil.get_circle_stencil 5)) /\
  (exists s, In s (Stencil.get_sphere_stencil Stencil.lapack_qr 30)) /\ exists ss, get_auto_mesh_stencil 4 = Ok ss /\ List.length ss = 80%nat.
Proof. split; [exact PropStencil.C17_lapack_reflections|].
  destruct (PropStencil.C17_circle_stencil 5 1) as (L & _); [lia|apply Rlt_0_1|].
  destruct (PropStencil.C17_sphere_stencil Stencil.lapack_qr 30 1 PropStencil.C17_lapack_reflections) as (L' & _); [lia|apply Rlt_0_1|].
  split; [destruct (Stencil.get_circle_stencil 5) as [|s l]; [discriminate|exists s; left; reflexivity]|].
  split; [destruct (Stencil.get_sphere_stencil Stencil.lapack_qr 30) as [|s l]; [discriminate|exists s; left; reflexivity]|].
  destruct (PropMesh.C17_mesh_stencil 4 1) as (ss & E & Ls & _); [reflexivity|]. exists ss. split; [exact E|]. change (3 ^ 4)%nat with 81%nat in Ls. lia. Qed.
Print Assumptions C17_hypotheses_met.

(** ** Minimizations: the search for the minimum of x^2 of C18_hypotheses_met; a two-step
    minimization; a periodic function shifted by two periods *)
Theorem C19_hypotheses_met : argsort_ok stable_argsort /\ is_simplex 1 ex_init /\
  exists r w, root_nelder_mead stable_argsort (fun _ x => Ok (ex_f x)) (nm_par 30 60 None) ex_init = Ok (r, w) /\ nan_free (w_log w) /\ r_success r = true /\ r_status r = 0%Z.
Proof. destruct PropMin.C18_hypotheses_met as (A & B & r & w & E & Sc & _ & _ & N). split; auto. split; auto. exists r, w. split; auto. split; auto. split; auto.
  destruct (PropMin.C19_status _ _ _ _ _ _ _ A B E) as (sim & h & _ & X & _). apply X. auto. Qed.
Print Assumptions C19_hypotheses_met.
Theorem C20_hypotheses_met : argsort_ok stable_argsort /\ is_simplex 1 ex_init /\
  (exists r w, root_nelder_mead stable_argsort (fun _ x => Ok (ex_f x)) (nm_par 30 60 None) ex_init = Ok (r, w) /\ (3 <= r_num_fev r)%nat) /\
  root_nelder_mead stable_argsort (fun k x => if (k =? 3)%nat then Err (UserExn 7) else Ok (ex_f x)) (nm_par 30 60 None) ex_init = Err (UserExn 7).
Proof. destruct PropMin.C18_hypotheses_met as (A & B & r & w & E & _). split; auto. split; auto. split.
  - exists r, w. split; auto. vm_compute in E. injection E as <- _. vm_compute. lia.
  - qcomp. Qed.
Print Assumptions C20_hypotheses_met.
Theorem C21_hypotheses_met : argsort_ok stable_argsort /\ is_simplex 1 ex_init /\
  exists p r w, p_keep p = true /\ root_nelder_mead stable_argsort (fun _ x => Ok (ex_f x)) p ex_init = Ok (r, w) /\ (2 <= List.length (r_simplex_history r))%nat.
Proof. destruct PropMin.C18_hypotheses_met as (A & B & _). split; auto. split; auto.
  set (p := {| p_xtol := p_xtol (nm_par 30 60 None); p_ftol := p_ftol (nm_par 30 60 None); p_maxiter := Some 30%nat; p_maxfev := Some 60%nat; p_fprime := None; p_keep := true |}).
  destruct (root_nelder_mead stable_argsort (fun _ x => Ok (ex_f x)) p ex_init) as [[r w]|] eqn:E; [|vm_compute in E; discriminate].
  exists p, r, w. split; auto. split; auto. vm_compute in E. injection E as <- _. vm_compute. lia. Qed.
Print Assumptions C21_hypotheses_met.
(** the fake potential makes the first run avoid the right half *)
Theorem C22_hypotheses_met : argsort_ok stable_argsort /\ is_simplex 1 ex_init /\ stateless ex_f (fun _ x => Ok (ex_f x)) /\
  exists r ow w, run_minimization stable_argsort (fun _ x => Ok (ex_f x)) (Some (fun _ x => Ok (if Qclt_le_dec (qc 1) (hd 0 x) then PInf else Fin 0))) (nm_par 30 60 None) ex_init = Ok (r, ow, w) /\
    nan_free (w_log w) /\ (r_num_fev (match r with Plain m => m | Joined c _ _ => c end) < num_fev_of r)%nat.
Proof. destruct PropMin.C18_hypotheses_met as (A & B & _). split; auto. split; auto. split; [intros k x; reflexivity|].
  destruct (run_minimization _ _ _ _ _) as [[[r ow] w]|] eqn:E; [|vm_compute in E; discriminate]. exists r, ow, w. split; auto.
  vm_compute in E. injection E as <- _ <-. split; [|vm_compute; lia]. apply Forall_forall. intros xv I.
  match type of I with In _ (w_log ?x) => assert (D : forallb (fun xv => match snd xv with NaN => false | _ => true end) (w_log x) = true) by (qcomp) end.
  rewrite forallb_forall in D. specialize (D xv I). destruct (snd xv); congruence. Qed.
Print Assumptions C22_hypotheses_met.
Theorem C23_hypotheses_met : argsort_ok stable_argsort /\ periodic (cs1 true) = true /\ wf_box (cs1 true) /\ is_simplex (dim (cs1 true)) par_x /\
  lattice_eq (cs1 true) (repeat 0 (dim (cs1 true))) [qc 2] /\
  (forall (k : nat) x y, lattice_eq (cs1 true) x y -> (fun (_ : nat) y => Ok (par_f y)) k x = Ok (par_f y)) /\
  exists r w, root_nelder_mead stable_argsort (fun _ y => Ok (par_f y)) par_p par_x = Ok (r, w).
Proof. split; [apply stable_argsort_ok|]. split; [reflexivity|]. split; [apply cs1_wf|].
  assert (Si : is_simplex (dim (cs1 true)) par_x) by (split; [cbn; lia|]; split; [reflexivity|repeat constructor]). split; [exact Si|]. split.
  - apply PropGeom.C01_normalize_canonical; [reflexivity|apply cs1_wf|reflexivity|reflexivity|qcomp].
  - split; [intros k x y L; unfold par_f; rewrite (normalize_lattice_inv (cs1 true) x y); auto; apply cs1_wf|].
    destruct (root_nelder_mead stable_argsort (fun _ y => Ok (par_f y)) par_p par_x) as [[r w]|e] eqn:E; [eauto|]. vm_compute in E. discriminate. Qed.
Print Assumptions C23_hypotheses_met.

(** ** Whole searches: the search of C29_hypotheses_met at various moments *)
Lemma search_at evs l : Forall (valid_event (g_cs (ex_g (Some ex_stencil) 2))) evs -> ex_summary (ex_g (Some ex_stencil) 2) evs = Some l ->
  exists Q s k, good_config (ex_g (Some ex_stencil) 2) /\ good_start (ex_g (Some ex_stencil) 2) s [] [] Q [] /\
    ex_state = Ok s /\ run_events (ex_g (Some ex_stencil) 2) (start s None) evs = Some k /\ reaches (ex_g (Some ex_stencil) 2) s None k /\ summary k = l.
Proof. intros V H. destruct (ex_started (Some ex_stencil) 2 (ex_config_std 2)) as (s & ss & E & G & _).
  destruct (ex_inv _ _ _ H) as (s' & k & E' & R & H'). rewrite E in E'. injection E' as <-.
  exists (map norm_simplex ss), s, k. split; [apply ex_config_std|]. split; auto. split; auto. split; auto. split; auto. exists evs. auto. Qed.
Lemma ex_val {A} (f : ctrl -> A) g evs d v s k : match ex_run g evs with Some k => f k | None => d end = v -> ex_state = Ok s -> run_events g (start s None) evs = Some k -> f k = v.
Proof. unfold ex_run. intros X E R. rewrite E, R in X. exact X. Qed.
Ltac valid := repeat constructor; try exact (fun l => Permutation_refl l).

(** two minimizations are running *)
Theorem C26_hypotheses_met : exists g Q s file k, good_config g /\ good_start g s [] [] Q [] /\ reaches g s file k /\ g_parallel g = 2%nat /\ running_now k = 2%nat.
Proof. destruct (search_at (firstn 4 ex_events) [0; 4; 0; 2; 1; 1; 2]%nat) as (Q & s & k & A & B & _ & _ & C & H); [valid|qcomp|].
  apply summary_inv in H as (_ & _ & _ & _ & _ & _ & H). exists (ex_g (Some ex_stencil) 2), Q, s, None, k. auto 10. Qed.
Print Assumptions C26_hypotheses_met.
(** a simplex was discarded, others started; positions refined *)
Theorem C27_hypotheses_met : exists g Q s file k, good_config g /\ good_start g s [] [] Q [] /\ reaches g s file k /\
  discarded (k_log k) <> [] /\ started (k_log k) <> [] /\ refined (k_log k) <> [] /\ k_phase k = Running /\ (1 <= running_now k)%nat.
Proof. destruct (search_at (firstn 8 ex_events) [0; 5; 1; 4; 2; 3; 1]%nat) as (Q & s & k & A & B & _ & _ & C & H); [valid|qcomp|].
  apply summary_inv in H as (H0 & H1 & H2 & _ & H4 & _ & H6). exists (ex_g (Some ex_stencil) 2), Q, s, None, k. split; auto. split; auto. split; auto.
  split; [intros X; rewrite X in H2; discriminate|]. split; [intros X; rewrite X in H1; discriminate|]. split; [intros X; rewrite X in H4; discriminate|].
  split; [|lia]. unfold phase_code in H0. destruct (k_phase k) as [| | |[]]; try discriminate; reflexivity. Qed.
Print Assumptions C27_hypotheses_met.
Theorem C28_hypotheses_met : exists g Q s file k, good_config g /\ good_start g s [] [] Q [] /\ reaches g s file k /\
  List.length (started (k_log k)) = 5%nat /\ List.length (recorded (k_log k)) = 5%nat /\ List.length (cl_flat (c_nodes (st_result (k_state k)))) = 3%nat.
Proof. destruct (search_at ex_events [2; 5; 1; 5; 2; 3; 0]%nat) as (Q & s & k & A & B & _ & _ & C & H); [valid|qcomp|].
  apply summary_inv in H as (_ & H1 & _ & H3 & _ & H5 & _). exists (ex_g (Some ex_stencil) 2), Q, s, None, k. auto 10. Qed.
Print Assumptions C28_hypotheses_met.
Theorem C30_hypotheses_met : exists g Q s file k, good_config g /\ good_start g s [] [] Q [] /\ reaches g s file k /\
  g_recheck g = true /\ g_count_cutoff g = 0%nat /\ List.length (refined (k_log k)) = 2%nat.
Proof. destruct PropSearch.C29_hypotheses_met as (g & Q & s & file & k & A & B & C & _ & _ & _ & _ & D & E & _ & _ & _ & F & _). exists g, Q, s, file, k. auto 10. Qed.
Print Assumptions C30_hypotheses_met.
Theorem C31_hypotheses_met : exists g Q s file k, good_config g /\ good_start g s [] [] Q [] /\ reaches g s file k /\
  periodic (g_cs g) = true /\ 0 < g_cutoff g /\ g_recheck g = true /\ g_count_cutoff g = 0%nat /\
  List.length (refined (k_log k)) = 2%nat /\ List.length (started (k_log k)) = 5%nat.
Proof. destruct PropSearch.C29_hypotheses_met as (g & Q & s & file & k & A & B & C & _ & _ & P & Z & D & E & _ & F & _ & G & _). exists g, Q, s, file, k. auto 12. Qed.
Print Assumptions C31_hypotheses_met.
(** a failed minimization: before and after the next turn *)
Theorem C33_hypotheses_met : exists g Q s evs k, good_config g /\ good_start g s [] [] Q [] /\ Forall (valid_event (g_cs g)) evs /\
  run_events g (start s None) evs = Some k /\ In (EFail 1 (UserExn 7)) evs /\ k_phase k = Running /\ in_flight k <> [] /\
  exists k', run_events g (start s None) (evs ++ [ETurn 0]) = Some k' /\ k_phase k' = Raised (UserExn 7).
Proof. pose (evs := [ETurn 0; EDone 0 (nd 5 0); EFail 1 (UserExn 7)]).
  assert (V : Forall (valid_event (g_cs (ex_g (Some ex_stencil) 2))) evs) by valid.
  assert (V' : Forall (valid_event (g_cs (ex_g (Some ex_stencil) 2))) (evs ++ [ETurn 0])) by valid.
  destruct (search_at evs [0; 2; 0; 1; 0; 1; 0]%nat V) as (Q & s & k & A & B & E & R & C & H); [qcomp|].
  destruct (search_at (evs ++ [ETurn 0]) [17; 2; 0; 1; 0; 1; 0]%nat V') as (Q' & s' & k' & _ & _ & E' & R' & _ & H'); [qcomp|].
  rewrite E in E'. injection E' as <-. apply summary_inv in H as (H0 & _). apply summary_inv in H' as (H0' & _).
  exists (ex_g (Some ex_stencil) 2), Q, s, evs, k. split; auto. split; auto. split; auto. split; auto. split; [right; right; left; reflexivity|].
  assert (Ph : k_phase k = Running) by (unfold phase_code in H0; destruct (k_phase k) as [| | |[]]; try discriminate; reflexivity). split; auto. split.
  - intros X. destruct (PropSearch.C28_minimized_once _ _ _ _ _ _ _ _ A B C) as (_ & P). rewrite X in P.
    destruct (ex_inv (ex_g (Some ex_stencil) 2) evs [0; 2; 0; 1; 0; 1; 0]%nat) as (s2 & k2 & E2 & R2 & S2); [qcomp|].
    rewrite E in E2. injection E2 as <-. rewrite R in R2. injection R2 as <-. apply summary_inv in S2 as (_ & L1 & _ & L2 & _). apply Permutation_length in P. rewrite app_length, map_length in P. cbn in P. lia.
  - exists k'. split; auto. unfold phase_code in H0'. destruct (k_phase k') as [| | |[]]; try discriminate. f_equal. f_equal. cbn in H0'. lia. Qed.
Print Assumptions C33_hypotheses_met.
(** saved between two turns, one minimization in flight; and after the end *)
Theorem C35_hypotheses_met : exists g Q s file k kf, good_config g /\ good_start g s [] [] Q [] /\ reaches g s file k /\ (1 <= running_now k)%nat /\
  reaches g s file kf /\ k_phase kf = Returned /\ Forall (own_position (g_cs g)) [] /\ Forall (child_pos (g_cs g)) [] /\
  (forall l : list simplex, Permutation (rev l) l) /\ same_file (enc_state (fun l => rev l) (k_state k)) (enc_state (fun l => rev l) (k_state k)).
Proof. destruct (search_at (firstn 8 ex_events) [0; 5; 1; 4; 2; 3; 1]%nat) as (Q & s & k & A & B & E & _ & C & H); [valid|qcomp|].
  destruct (search_at ex_events [2; 5; 1; 5; 2; 3; 0]%nat) as (Q' & s' & k' & _ & _ & E' & _ & C' & H'); [valid|qcomp|].
  rewrite E in E'. injection E' as <-. apply summary_inv in H as (_ & _ & _ & _ & _ & _ & H). apply summary_inv in H' as (H' & _).
  exists (ex_g (Some ex_stencil) 2), Q, s, None, k, k'. split; auto. split; auto. split; auto. split; [lia|]. split; auto. split; [apply phase_returned; auto|].
  split; [constructor|]. split; [constructor|]. split; [intros l; apply Permutation_sym, Permutation_rev|]. apply same_refl. Qed.
Print Assumptions C35_hypotheses_met.
(** after a save *)
Theorem C36_hypotheses_met : exists g Q s file k, good_config g /\ good_start g s [] [] Q [] /\ reaches g s file k /\
  needs_saving (k_state k) = false /\ k_file k <> None /\ started (k_log k) <> [].
Proof. destruct (search_at (firstn 7 ex_events) [0; 4; 0; 4; 1; 3; 0]%nat) as (Q & s & k & A & B & E & R & C & H); [valid|qcomp|].
  apply summary_inv in H as (_ & H1 & _). exists (ex_g (Some ex_stencil) 2), Q, s, None, k. split; auto. split; auto. split; auto.
  pose proof (ex_val (fun k => (needs_saving (k_state k), match k_file k with Some _ => true | None => false end)) (ex_g (Some ex_stencil) 2) (firstn 7 ex_events) (true, false) (false, true) s k ltac:(vm_cast_no_check (eq_refl (false, true))) E R) as X.
  cbv beta in X. injection X as X Y. split; auto. split; [destruct (k_file k); discriminate|]. intros Z. rewrite Z in H1. discriminate. Qed.
Print Assumptions C36_hypotheses_met.
Theorem C55_hypotheses_met : exists g Q s file k, good_config g /\ good_start g s [] [] Q [] /\ reaches g s file k /\ k_phase k = Returned /\
  g_stencil g <> None /\ 0 < g_cutoff g /\ nodes_of g (map snd (recorded (k_log k))) <> [].
Proof. destruct PropSearch.C29_hypotheses_met as (g & Q & s & file & k & A & B & C & D & E & _ & Z & _ & _ & _ & _ & _ & _ & N). exists g, Q, s, file, k. split; auto. split; auto. split; auto. split; auto. split; auto. split; auto.
  destruct (PropSearch.C28_one_result_each _ _ _ _ _ _ _ _ A B C) as (X & _). cbn [app] in X. unfold nodes_of. rewrite <- X. intros Y. rewrite Y in N. discriminate. Qed.
Print Assumptions C55_hypotheses_met.
(** restoring the state saved in mid-search, adding the initial mesh again *)
Theorem C39_hypotheses_met : exists g s0 ss, good_config g /\ usable_state g (fun l => l) s0 /\ mesh_args (limits (g_cs g)) [2%nat] /\
  generate_mesh_simplices (limits (g_cs g)) [2%nat] (periodic (g_cs g)) false = Ok ss /\ minimization_results (st_result s0) <> [].
Proof. destruct (search_at (firstn 8 ex_events) [0; 5; 1; 4; 2; 3; 1]%nat) as (Q & s & k & A & B & E & R & C & H); [valid|qcomp|].
  apply summary_inv in H as (_ & _ & _ & _ & _ & H5 & _).
  destruct (objects_facts _ _ _ _ _ _ _ _ A B C (fun l => l)) as (F1 & F2 & F3 & F4 & _); [intros l; apply Permutation_refl|].
  destruct (PropSearch.C28_one_result_each _ _ _ _ _ _ _ _ A B C) as (N & J & Rf). cbn [app] in N, J, Rf.
  pose proof (ex_val (fun k => forallb (fun r => (List.length (pos_of r) =? 1)%nat) (minimization_results (st_result (k_state k))) && forallb (fun p => (List.length p =? 1)%nat) (cl_flat (c_refined (st_result (k_state k)))) &&
        match objects (fun l => l) (st_position (k_state k)) with [] => true | _ => false end) (ex_g (Some ex_stencil) 2) (firstn 8 ex_events) false true s k ltac:(vm_cast_no_check (eq_refl true)) E R) as X.
  cbv beta in X. apply andb_true_iff in X as (X & X3). apply andb_true_iff in X as (X1 & X2). rewrite forallb_forall in X1, X2.
  destruct (ex_started (Some ex_stencil) 2 (ex_config_std 2)) as (_ & ss & _ & _ & G).
  exists (ex_g (Some ex_stencil) 2), (k_state k), ss. split; auto. split; [|split; [exact ex_mesh|split; [exact G|]]].
  - destruct (objects (fun l => l) (st_position (k_state k))) eqn:O; [|discriminate]. constructor; rewrite ?O; auto; try constructor; auto.
    + apply Forall_forall. intros r Hr. apply Nat.eqb_eq. apply X1. exact Hr.
    + apply Forall_forall. intros r Hr. apply Nat.eqb_eq. apply X2. exact Hr.
  - unfold minimization_results. intros Z. apply app_eq_nil in Z as (Z & _). rewrite Z in H5. discriminate. Qed.
Print Assumptions C39_hypotheses_met.

(** ** Clusters: 1/20 and 19/20 are neighbours through the boundary, 1/2 is alone *)
Theorem C42_hypotheses_met : exists c d, any_order (fun l : list point => rev l) /\ @any_order (point * point * R) (fun l => l) /\
  wf_box PropCluster.c41_cs /\ Forall (is_pos PropCluster.c41_cs) PropCluster.c41_ps /\
  create_clusters (fun l => rev l) (fun l => l) PropCluster.c41_cs (PropCluster.c41_q 1 5) PropCluster.c41_ps = [c; d] /\
  In [PropCluster.c41_q 1 20] (g_nodes c) /\ In [PropCluster.c41_q 19 20] (g_nodes c) /\ In [PropCluster.c41_q 1 2] (g_nodes d) /\ ~ In [PropCluster.c41_q 1 2] (g_nodes c).
Proof. destruct PropCluster.C41_hypotheses_met as (O & EO & B & P & E).
  destruct (create_clusters (fun l => rev l) (fun l => l) PropCluster.c41_cs (PropCluster.c41_q 1 5) PropCluster.c41_ps) as [|c [|d [|x cl]]] eqn:Ec; try discriminate E.
  cbn [map] in E. injection E as E1 E2. exists c, d. split; auto. split; auto. split; auto. split; auto. split; auto. rewrite E1, E2. split; [left; reflexivity|]. split; [right; left; reflexivity|].
  split; [left; reflexivity|]. intros [X|[X|[]]]; discriminate X. Qed.
Print Assumptions C42_hypotheses_met.
Theorem C43_hypotheses_met : exists c, any_order (fun l : list point => rev l) /\ @any_order (point * point * R) (fun l => l) /\
  wf_box PropCluster.c41_cs /\ Forall (is_pos PropCluster.c41_cs) PropCluster.c41_ps /\
  In c (create_clusters (fun l => rev l) (fun l => l) PropCluster.c41_cs (PropCluster.c41_q 1 5) PropCluster.c41_ps) /\
  has_edge c [PropCluster.c41_q 1 20] [PropCluster.c41_q 19 20].
Proof. destruct C42_hypotheses_met as (c & d & O & EO & B & P & E & I1 & I2 & _). exists c.
  assert (Ic : In c (create_clusters (fun l => rev l) (fun l => l) PropCluster.c41_cs (PropCluster.c41_q 1 5) PropCluster.c41_ps)) by (rewrite E; left; reflexivity).
  split; [exact O|]. split; [exact EO|]. split; [exact B|]. split; [exact P|]. split; [exact Ic|].
  destruct (PropCluster.C43_edges _ _ _ _ _ _ O EO B P Ic) as (_ & _ & H & _). apply H; [exact I1|exact I2|]. split; [discriminate|].
  apply PropGeom.C03_comparison_le. qcomp. Qed.
Print Assumptions C43_hypotheses_met.
(** three points on a line *)
Theorem C44_hypotheses_met : exists rs, any_order (fun l : list point => l) /\ wf_box PropDim.c46_cs /\ wf_graph PropDim.c46_g /\
  Forall (is_pos PropDim.c46_cs) (g_nodes PropDim.c46_g) /\ g_nodes PropDim.c46_g <> [] /\ PropDim.good_env PropDim.c46_cs PropDim.c46_g rs (Some 10%nat) /\
  calculate_dimension (fun l => l) rs PropDim.c46_cs PropDim.c46_g (Qc2R (qc 2)) 3 (Some 5%nat) (Some 10%nat) = Ok (Some 1%nat).
Proof. destruct PropDim.C46_hypotheses_met as (rs & G & B & W & P & E). exists rs. split; [intros l; apply Permutation_refl|]. split; auto. split; auto. split; auto. split; [discriminate|]. split; auto. Qed.
Print Assumptions C44_hypotheses_met.
(** two nodes in two dimensions are drawn *)
Theorem C58_hypotheses_met : exists c, wf_box PropContainer.ex_cs2 /\ history PropContainer.ex_cs2 (Fin 1) 1 PropContainer.ex_rs [[qc 2; qc 2]] c /\
  dim PropContainer.ex_cs2 = 2%nat /\ List.length (cl_flat (c_nodes c)) = 2%nat.
Proof. destruct PropContainer.ex_hist as (_ & _ & W & _). destruct PropContainer.ex_query as (c & E & L & _). exists c. split; auto. split; [apply hist_new; auto; repeat constructor|]. split; auto. Qed.
Print Assumptions C58_hypotheses_met.
