(** C61: the default search in every dimension.  [circle] and [sphere] are the numbers the
    program computes for the automatic stencils in two and three dimensions; all that is
    assumed is that each is within 1/100 of the exact value. *)
From Coq Require Import Reals String.
From Verif Require Import Base BaseFacts CoordSys CoordSysR SpecGeom Values Container Queue Mesh Hdf5 NelderMead SpecMin Controller SpecSearch SpecRun Config SpecConfig ConfigFacts
  Stencil SpecStencil StencilFacts SpecStencilApprox StencilApprox PropConfig.
From Coq Require Import Lra.
Open Scope list_scope.
Open Scope Qc_scope.

(** *** The stencils consist of proper simplices, no two with the same vertices. *)
Theorem C61_circle : forall st, near_circle 5 st -> length st = 5%nat /\ usable_stencil 2 st.
Proof. intros st N. split; [rewrite (Forall2_len _ _ _ N); apply circle_count|apply circle_usable; auto]. Qed.
Print Assumptions C61_circle.
Theorem C61_sphere : forall qr st, qr_ok qr -> near_sphere qr 30 st -> length st = 30%nat /\ usable_stencil 3 st.
Proof. intros qr st Q N. split; [rewrite (Forall2_len _ _ _ N); apply sphere_count|apply (sphere_usable qr); auto]. Qed.
Print Assumptions C61_sphere.

(** *** Hence arguments with the automatic stencil are valid in every dimension. *)
Theorem C61_valid_arguments : forall qr circle sphere a, qr_ok qr -> near_circle 5 circle -> near_sphere qr 30 sphere ->
  a_stencil a = StAuto -> a_limits a <> [] -> Forall (fun l => fst l <> snd l) (a_limits a) -> 0 < a_feature a ->
  (a_periodic a = true \/ Forall (fun l => a_feature a <= qc 6 * qabs (snd l - fst l)) (a_limits a)) ->
  (match a_mesh a with MeshInt n => (1 <= n)%nat | MeshList l => length l = length (a_limits a) /\ Forall (fun n => (1 <= n)%nat) l end) ->
  valid_args circle sphere a.
Proof. intros qr circle sphere a Q Nc Ns Sa D L F P M. constructor; auto. rewrite Sa. split; intros _; [apply circle_usable; auto|apply (sphere_usable qr); auto]. Qed.
Print Assumptions C61_valid_arguments.

(** *** Every fair run of the default periodic search ends, in every dimension. *)
Theorem C61_default_search_ends : forall qr circle sphere order a load lf force g p s, qr_ok qr -> near_circle 5 circle -> near_sphere qr 30 sphere ->
  a_stencil a = StAuto -> a_limits a <> [] -> Forall (fun l => fst l <> snd l) (a_limits a) -> 0 < a_feature a ->
  (match a_mesh a with MeshInt n => (1 <= n)%nat | MeshList l => length l = length (a_limits a) /\ Forall (fun n => (1 <= n)%nat) l end) ->
  (load = false \/ (load = true /\ lf = Err IOError)) ->
  a_periodic a = true -> a_recheck a = true -> a_count_cutoff a = 0%nat -> (1 <= a_parallel a)%nat ->
  make_controller circle sphere order a None load true lf force = Ok (g, p, s) ->
  forall file k ev, fair_run g s file k ev -> exists i, over (k i).
Proof. intros qr circle sphere order a load lf force g p s Q Nc Ns Sa D L F M Lo P R C N E. apply (C56_default_search_ends circle sphere order a load lf force g p s); auto.
  apply (C61_valid_arguments qr); auto. Qed.
Print Assumptions C61_default_search_ends.

Lemma r_one : Qc2R 1 = 1%R. Proof. unfold Qc2R. cbn. lra. Qed.
Lemma r_bound c : (Rabs (Qc2R c) <= 10 / 3)%R -> qabs c <= Q2Qc (10 # 3).
Proof. intros H. apply rabs_between in H. assert (T : Qc2R (Q2Qc (10 # 3)) = (10 / 3)%R) by (unfold Qc2R; cbn; lra).
  unfold qabs. destruct (ltb c 0); apply Qc2R_le; rewrite T; [|lra]. replace (- c) with (0 - c) by ring. rewrite Qc2R_sub, Qc2R_0. lra. Qed.

(** *** Simplices placed around a position keep all their vertices at least the distance cutoff
    away from it (with periodicity if every side is at least 20/9 feature sizes). *)
Theorem C61_stencil_clear_of_centre : forall qr circle sphere order a load lf force g p s, qr_ok qr -> near_circle 5 circle -> near_sphere qr 30 sphere ->
  valid_args circle sphere a -> a_stencil a = StAuto ->
  (a_periodic a = true -> Forall (fun l => qc 20 * a_feature a <= qc 9 * qabs (snd l - fst l)) (a_limits a)) ->
  make_controller circle sphere order a None load true lf force = Ok (g, p, s) ->
  exists st, g_stencil g = Some st /\ forall pos x v, is_pos (g_cs g) pos -> In x (map (map (vadd pos)) st) -> In v x ->
    dist_lt (g_cs g) pos v (g_cutoff g) = false.
Proof. intros qr circle sphere order a load lf force g p s Q Nc Ns V Sa Sz E.
  destruct (C56_configuration _ _ _ _ _ _ _ _ _ _ _ _ E) as (_ & _ & _ & _ & _ & _ & _ & _ & A3 & _). rewrite Sa in A3.
  destruct A3 as (raw & st & Es & Ml & Er). exists st. split; auto.
  apply (stencil_clear circle sphere order a load lf force g p s raw st V Sz E Ml).
  destruct (Nat.eq_dec (length (a_limits a)) 2) as [L2|L2]; [|destruct (Nat.eq_dec (length (a_limits a)) 3) as [L3|L3]].
  - rewrite L2 in *. subst raw. intros y w Hy Hw. destruct (circle_clear _ _ _ Nc Hy Hw) as (x1 & x2 & -> & B & B1 & B2). split; auto. split.
    + apply Qc2R_lt. unfold qsum. cbn [map fold_right]. rewrite r_one, !Qc2R_add, !Qc2R_mul, Qc2R_0. lra.
    + intros c [<-|[<-|[]]]; apply r_bound; auto.
  - rewrite L3 in *. subst raw. intros y w Hy Hw. destruct (sphere_clear qr Q _ _ _ Ns Hy Hw) as (x1 & x2 & x3 & -> & B & B1 & B2 & B3). split; auto. split.
    + apply Qc2R_lt. unfold qsum. cbn [map fold_right]. rewrite r_one, !Qc2R_add, !Qc2R_mul, Qc2R_0. lra.
    + intros c [<-|[<-|[<-|[]]]]; apply r_bound; auto.
  - apply auto_mesh_clear. destruct (length (a_limits a)) as [|[|[|[|n]]]]; auto; congruence. Qed.
Print Assumptions C61_stencil_clear_of_centre.

(** the hypotheses are met: such numbers exist, and with them the default search on a square
    and in a cube can be set up *)
Lemma near_exists r : exists q, near_number q r.
Proof. destruct (archimed (100 * r)) as [A B]. set (z := up (100 * r)) in *. exists (Q2Qc (z # 100)). unfold near_number, Qc2R. rewrite (Qreals.Qeq_eqR _ (z # 100)) by (apply Qred_correct).
  unfold Q2R. cbn. apply Rabs_le. lra. Qed.
Lemma near_all {A B} (P : A -> B -> Prop) l : (forall y, exists x, P x y) -> exists m, Forall2 P m l.
Proof. intros H. induction l as [|y l [m IH]]; [exists []; constructor|]. destruct (H y) as [x Hx]. exists (x :: m). constructor; auto. Qed.
Definition c61_args (d : nat) : search_args :=
  mk_args (repeat (0, 1) d) true (MeshInt 3) StAuto (Q2Qc (1 # 1000000)) (Q2Qc (2 # 1000)) (mk_nm_kwargs None None None None None None) 50 true 0 0.
Theorem C61_hypotheses_met : qr_ok lapack_qr /\ exists circle sphere, near_circle 5 circle /\ near_sphere lapack_qr 30 sphere /\
  forall d, (1 <= d)%nat -> valid_args circle sphere (c61_args d) /\
    Forall (fun l => qc 20 * a_feature (c61_args d) <= qc 9 * qabs (snd l - fst l)) (a_limits (c61_args d)) /\
    exists g p s, make_controller circle sphere (fun l => l) (c61_args d) None false true (Err IOError) false = Ok (g, p, s).
Proof. split; [exact lapack_qr_ok|].
  destruct (near_all (Forall2 near2) (get_circle_stencil 5)) as [circle Nc].
  { intros y. apply near_all. intros [u v]. destruct (near_exists u) as [a Ha], (near_exists v) as [b Hb]. exists [a; b]. split; auto. }
  destruct (near_all (Forall2 near3) (get_sphere_stencil lapack_qr 30)) as [sphere Ns].
  { intros y. apply near_all. intros [[u v] w]. destruct (near_exists u) as [a Ha], (near_exists v) as [b Hb], (near_exists w) as [c Hc]. exists [a; b; c]. repeat split; auto. }
  exists circle, sphere. split; [exact Nc|]. split; [exact Ns|]. intros d Hd.
  assert (V : valid_args circle sphere (c61_args d)).
  { apply (C61_valid_arguments lapack_qr); auto using lapack_qr_ok.
    - cbn. destruct d; [lia|]. discriminate.
    - cbn. apply Forall_forall. intros l Hl. apply repeat_spec in Hl. subst. cbn. discriminate.
    - cbn. reflexivity.
    - cbn. lia. }
  split; [exact V|]. split.
  - cbn. apply Forall_forall. intros l Hl. apply repeat_spec in Hl. subst. cbn. discriminate.
  - destruct (C56_valid_arguments circle sphere (fun l => l) (c61_args d) false (Err IOError) false V (or_introl eq_refl)) as (g & p & s & Q & E & _). eauto. Qed.
Print Assumptions C61_hypotheses_met.
