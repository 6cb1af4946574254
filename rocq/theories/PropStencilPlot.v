(** C76: the plot of a refinement stencil. *)
From Coq Require Import Reals List.
From Verif Require Import Base BaseFacts CoordSys FloatDimNum StencilPlot.
From Coq Require Import Lra Lia.
Import ListNotations.
Open Scope list_scope.
Open Scope R_scope.

(** *** Specification *)
(** [x] and [y] are two vertices of the simplex *)
Definition is_edge (stcl : list (list rvector)) (x y : rvector) : Prop := exists s l1 l2 l3, In s stcl /\ s = l1 ++ x :: l2 ++ y :: l3.
(** a closed curve along the unit circle, in steps of at most 1/30 in each coordinate *)
Definition unit_circle (c : list rvector) : Prop :=
  (forall p, In p c -> exists x y, p = [x; y] /\ x ^ 2 + y ^ 2 = 1) /\
  (forall x y, x ^ 2 + y ^ 2 = 1 -> exists x' y', In [x'; y'] c /\ Rabs (x - x') <= / 60 /\ Rabs (y - y') <= / 60) /\
  (forall l1 x y x' y' l2, c = l1 ++ [x; y] :: [x'; y'] :: l2 -> Rabs (x - x') <= / 30 /\ Rabs (y - y') <= / 30) /\
  nth_error c 0 = Some [1; 0] /\ nth_error c 199 = Some [1; 0] /\ length c = 200%nat.
(** a surface on the unit sphere which comes near to each of its points *)
Definition unit_sphere (g : list (list rvector)) : Prop :=
  (forall r p, In r g -> In p r -> exists x y z, p = [x; y; z] /\ x ^ 2 + y ^ 2 + z ^ 2 = 1) /\
  (forall x y z, x ^ 2 + y ^ 2 + z ^ 2 = 1 -> exists r x' y' z', In r g /\ In [x'; y'; z'] r /\ Rabs (x - x') <= / 40 /\ Rabs (y - y') <= / 40 /\ Rabs (z - z') <= / 40).

(** *** Limits *)
Lemma map2_nth (op : R -> R -> R) : forall u v i, nth_error (map2 op u v) i = match nth_error u i, nth_error v i with Some x, Some y => Some (op x y) | _, _ => None end.
Proof. induction u as [|x u IH]; intros [|y v] [|i]; cbn; auto; destruct (nth_error u i); auto. Qed.
Section Fold.
  Variables (op : R -> R -> R) (le : R -> R -> Prop).
  Hypothesis Ol : forall x y, le (op x y) x.
  Hypothesis Or : forall x y, le (op x y) y.
  Hypothesis Oc : forall x y, op x y = x \/ op x y = y.
  Hypothesis Rf : forall x, le x x.
  Hypothesis Tr : forall x y z, le x y -> le y z -> le x z.
  Lemma fold_axis n : forall vs v, length v = n -> Forall (fun v => length v = n) vs ->
    let r := fold_left (map2 op) vs v in length r = n /\
    forall i m, nth_error r i = Some m -> (forall w x, In w (v :: vs) -> nth_error w i = Some x -> le m x) /\ (exists w, In w (v :: vs) /\ nth_error w i = Some m).
  Proof. induction vs as [|u vs IH]; intros v Lv F; cbn [fold_left].
    - split; [exact Lv|]. intros i m Em. split; [|exists v; cbn; auto]. intros w x [<- |[]] Ew. rewrite Em in Ew. injection Ew as <-. apply Rf.
    - pose proof (Forall_inv F) as Lu. cbv beta in Lu. pose proof (Forall_inv_tail F) as F'. assert (Lm : length (map2 op v u) = n) by (rewrite map2_length; lia). destruct (IH (map2 op v u) Lm F') as (L & H). split; [exact L|].
      intros i m Em. destruct (H i m Em) as (B & (w & Iw & Ew)).
      assert (Hi : exists a b, nth_error v i = Some a /\ nth_error u i = Some b).
      { assert (i < n)%nat by (rewrite <- L; apply nth_error_Some; rewrite Em; discriminate). destruct (nth_error v i) as [a|] eqn:Ea; [|apply nth_error_None in Ea; lia]. destruct (nth_error u i) as [c|] eqn:Ec; [|apply nth_error_None in Ec; lia]. eauto. }
      destruct Hi as (a & c & Ea & Ec). assert (Em2 : nth_error (map2 op v u) i = Some (op a c)) by (rewrite map2_nth, Ea, Ec; reflexivity). split.
      + intros w' x [<- |[<- |I]] Ex.
        * rewrite Ea in Ex. injection Ex as <-. apply Tr with (op a c); auto. apply (B (map2 op v u)); cbn; auto.
        * rewrite Ec in Ex. injection Ex as <-. apply Tr with (op a c); auto. apply (B (map2 op v u)); cbn; auto.
        * apply (B w'); cbn; auto.
      + destruct Iw as [<- |Iw]; [|exists w; cbn; auto]. rewrite Em2 in Ew. injection Ew as <-. destruct (Oc a c) as [Q|Q]; rewrite Q; [exists v|exists u]; cbn; auto. Qed.
End Fold.

(** *** Circle and sphere *)
Lemma sin_abs x : Rabs (sin x) <= Rabs x.
Proof. destruct (Rtotal_order x 0) as [H|[->|H]].
  - pose proof (sin_lt_x (- x) ltac:(lra)) as A. rewrite sin_neg in A. rewrite (Rabs_left x) by auto. destruct (Rle_or_lt (sin x) 0); [rewrite Rabs_left1 by auto; lra|].
    rewrite Rabs_pos_eq by lra. destruct (Rle_or_lt x (- PI)); [pose proof (SIN_bound x); pose proof PI2_3_2; lra|]. pose proof (sin_gt_0 (- x) ltac:(lra) ltac:(lra)) as B. rewrite sin_neg in B. lra.
  - rewrite sin_0, Rabs_R0. lra.
  - pose proof (sin_lt_x x H) as A. rewrite (Rabs_pos_eq x) by lra. destruct (Rle_or_lt 0 (sin x)); [rewrite Rabs_pos_eq by auto; lra|].
    rewrite Rabs_left by lra. destruct (Rle_or_lt PI x); [pose proof (SIN_bound x); pose proof PI2_3_2; lra|]. pose proof (sin_ge_0 x ltac:(lra) ltac:(lra)). lra. Qed.
Lemma cos_diff a b : Rabs (cos a - cos b) <= Rabs (a - b).
Proof. rewrite form2. rewrite !Rabs_mult. assert (A : Rabs (sin ((a + b) / 2)) <= 1) by (apply Rabs_le, SIN_bound). pose proof (sin_abs ((a - b) / 2)) as B. unfold Rdiv in B at 2. rewrite Rabs_mult, (Rabs_pos_eq (/ 2)) in B by lra.
  replace (Rabs (-2)) with 2 by (rewrite Rabs_left; lra). pose proof (Rabs_pos (sin ((a - b) / 2))). pose proof (Rabs_pos (sin ((a + b) / 2))). nra. Qed.
Lemma sin_diff a b : Rabs (sin a - sin b) <= Rabs (a - b).
Proof. rewrite form4. rewrite !Rabs_mult. assert (A : Rabs (cos ((a + b) / 2)) <= 1) by (apply Rabs_le, COS_bound). pose proof (sin_abs ((a - b) / 2)) as B. unfold Rdiv in B at 2. rewrite Rabs_mult, (Rabs_pos_eq (/ 2)) in B by lra.
  replace (Rabs 2) with 2 by (rewrite Rabs_pos_eq; lra). pose proof (Rabs_pos (sin ((a - b) / 2))). pose proof (Rabs_pos (cos ((a + b) / 2))). nra. Qed.
Lemma cs1 a : cos a ^ 2 + sin a ^ 2 = 1.
Proof. pose proof (sin2_cos2 a) as H. unfold Rsqr in H. lra. Qed.
Lemma polar x y : x ^ 2 + y ^ 2 = 1 -> exists a, 0 <= a <= 2 * PI /\ x = cos a /\ y = sin a.
Proof. intros H. assert (B : -1 <= x <= 1) by nra. pose proof (acos_bound x) as A. assert (E : sin (acos x) = Rabs y). { rewrite sin_acos by auto. replace (1 - Rsqr x) with (Rsqr y) by (unfold Rsqr; lra). apply sqrt_Rsqr_abs. }
  destruct (Rle_or_lt 0 y).
  - exists (acos x). split; [lra|]. rewrite cos_acos, E, Rabs_pos_eq by auto. auto.
  - exists (2 * PI - acos x). split; [lra|]. rewrite cos_minus, sin_minus, cos_2PI, sin_2PI, cos_acos, E, Rabs_left by auto. lra. Qed.
Lemma lin_length stop n : length (rlinspace stop n) = n.
Proof. unfold rlinspace. rewrite map_length, seq_length. reflexivity. Qed.
Lemma lin_nth stop n i : (i < n)%nat -> nth_error (rlinspace stop n) i = Some (INR i * (stop / INR (n - 1))).
Proof. intros H. unfold rlinspace. rewrite nth_error_map. rewrite (nth_error_nth' _ 0%nat) by (rewrite seq_length; auto). rewrite seq_nth by auto. reflexivity. Qed.
Lemma i199 : INR (200 - 1) = 199.
Proof. change (200 - 1)%nat with 199%nat. rewrite INR_IZR_INZ. reflexivity. Qed.
(** some point of the grid is within half a step *)
Lemma lin_near stop a : 0 <= a <= stop -> 0 < stop -> exists t, In t (rlinspace stop 200) /\ Rabs (a - t) <= stop / 398.
Proof. intros Ha Hs. set (h := stop / 199). assert (Ph : 0 < h) by (unfold h; lra). set (q := a / h + / 2).
  assert (Eq : a / h * h = a) by (field; lra). assert (Hq : 0 <= a / h <= 199). { split; [apply Rmult_le_reg_r with h; lra|]. apply Rmult_le_reg_r with h; auto. rewrite Eq. unfold h. lra. }
  set (z := (up q - 1)%Z). assert (Z1 : IZR z <= q < IZR z + 1). { unfold z. rewrite minus_IZR. pose proof (archimed q). lra. }
  assert (Zr : (0 <= z <= 199)%Z). { split. - apply Z.lt_succ_r. apply lt_IZR. rewrite succ_IZR. unfold q in Z1. lra. - apply Z.lt_succ_r. apply lt_IZR. unfold Z.succ. rewrite plus_IZR. unfold q in Z1. lra. }
  exists (INR (Z.to_nat z) * (stop / INR (200 - 1))). split; [eapply nth_error_In; apply (lin_nth stop 200 (Z.to_nat z)); lia|]. rewrite i199, INR_IZR_INZ, Z2Nat.id by lia. fold h.
  rewrite <- Eq at 1. rewrite <- Rmult_minus_distr_r, Rabs_mult, (Rabs_pos_eq h) by lra. replace (stop / 398) with (/ 2 * h) by (unfold h; field). apply Rmult_le_compat_r; [lra|]. apply Rabs_le. unfold q in Z1. lra. Qed.
Lemma circle_ok : unit_circle circle_points.
Proof. pose proof pi_bounds as Pb. split; [|split; [|split; [|split; [|split]]]].
  - intros p H. apply in_map_iff in H as (phi & <- & _). exists (cos phi), (sin phi). split; auto. apply cs1.
  - intros x y H. destruct (polar x y H) as (a & Ra & -> & ->). destruct (lin_near (2 * PI) a Ra ltac:(lra)) as (t & It & Ht). exists (cos t), (sin t). split; [apply in_map_iff; exists t; auto|].
    pose proof (cos_diff a t). pose proof (sin_diff a t). lra.
  - intros l1 x y x' y' l2 E. assert (E1 : nth_error circle_points (length l1) = Some [x; y]) by (rewrite E, nth_error_app2, Nat.sub_diag by lia; reflexivity).
    assert (E2 : nth_error circle_points (S (length l1)) = Some [x'; y']) by (rewrite E, nth_error_app2 by lia; replace (S (length l1) - length l1)%nat with 1%nat by lia; reflexivity).
    assert (L : (S (length l1) < 200)%nat). { assert (X : (S (length l1) < length circle_points)%nat) by (apply nth_error_Some; rewrite E2; discriminate). unfold circle_points in X. rewrite map_length, lin_length in X. exact X. }
    unfold circle_points in E1, E2. rewrite nth_error_map, lin_nth in E1, E2 by lia. cbn [option_map] in E1, E2. rewrite S_INR, i199 in E2. rewrite i199 in E1. set (a := INR (length l1) * (2 * PI / 199)) in *.
    injection E1 as <- <-. injection E2 as <- <-. set (b := (INR (length l1) + 1) * (2 * PI / 199)). assert (D : Rabs (a - b) = 2 * PI / 199) by (unfold a, b; rewrite Rabs_left; lra). pose proof (cos_diff a b). pose proof (sin_diff a b). lra.
  - unfold circle_points. rewrite nth_error_map, lin_nth by lia. cbn [option_map INR]. rewrite Rmult_0_l, cos_0, sin_0. reflexivity.
  - unfold circle_points. rewrite nth_error_map, lin_nth by lia. cbn [option_map]. rewrite i199. replace (INR 199) with 199 by (rewrite INR_IZR_INZ; reflexivity). replace (199 * (2 * PI / 199)) with (2 * PI) by field. rewrite cos_2PI, sin_2PI. reflexivity.
  - unfold circle_points. rewrite map_length. apply lin_length. Qed.
Lemma sphere_ok : unit_sphere sphere_points.
Proof. pose proof pi_bounds as Pb. split.
  - intros r p H Hp. apply in_map_iff in H as (phi & <- & _). apply in_map_iff in Hp as (th & <- & _). do 3 eexists. split; [reflexivity|]. pose proof (cs1 phi) as A. pose proof (cs1 th) as B.
    replace ((cos phi * sin th) ^ 2 + (sin phi * sin th) ^ 2 + (1 * cos th) ^ 2) with ((cos phi ^ 2 + sin phi ^ 2) * sin th ^ 2 + cos th ^ 2) by ring. rewrite A. lra.
  - intros x y z H. assert (Bz : -1 <= z <= 1) by nra. set (th := acos z). pose proof (acos_bound z) as Ba. fold th in Ba. assert (Ec : cos th = z) by (apply cos_acos; auto).
    assert (Es : 0 <= sin th) by (apply sin_ge_0; lra). pose proof (cs1 th) as C1. rewrite Ec in C1.
    assert (Po : exists phi, 0 <= phi <= 2 * PI /\ x = cos phi * sin th /\ y = sin phi * sin th).
    { destruct (Req_dec (sin th) 0) as [E0|N0].
      - exists 0. split; [lra|]. rewrite E0 in *. assert (x = 0 /\ y = 0) by nra. rewrite !Rmult_0_r. tauto.
      - destruct (polar (x / sin th) (y / sin th)) as (a & Ra & E1 & E2).
        + replace ((x / sin th) ^ 2 + (y / sin th) ^ 2) with ((x ^ 2 + y ^ 2) / sin th ^ 2) by (field; auto). replace (x ^ 2 + y ^ 2) with (sin th ^ 2) by lra. field. auto.
        + exists a. split; auto. rewrite <- E1, <- E2. split; field; auto. }
    destruct Po as (phi & Rp & -> & ->). destruct (lin_near (2 * PI) phi Rp ltac:(lra)) as (t & It & Ht). destruct (lin_near PI th Ba ltac:(lra)) as (u & Iu & Hu).
    exists (map (fun theta => [cos t * sin theta; sin t * sin theta; 1 * cos theta]) (rlinspace PI 200)), (cos t * sin u), (sin t * sin u), (1 * cos u). split; [apply in_map_iff; exists t; auto|]. split; [apply in_map_iff; exists u; auto|].
    pose proof (cos_diff phi t) as D1. pose proof (sin_diff phi t) as D2. pose proof (sin_diff th u) as D3. pose proof (cos_diff th u) as D4. pose proof (SIN_bound th) as S1. pose proof (COS_bound t) as S2. pose proof (SIN_bound t) as S3.
    assert (G : forall p q, -1 <= q <= 1 -> Rabs (p - q) <= Rabs (phi - t) -> Rabs (p * sin th - q * sin u) <= / 40).
    { intros p q Bq Hpq. replace (p * sin th - q * sin u) with ((p - q) * sin th + q * (sin th - sin u)) by ring. eapply Rle_trans; [apply Rabs_triang|]. rewrite !Rabs_mult. rewrite (Rabs_pos_eq (sin th)) by auto. assert (Rabs q <= 1) by (apply Rabs_le; auto).
      pose proof (Rabs_pos (p - q)). pose proof (Rabs_pos (sin th - sin u)). pose proof (Rabs_pos q). nra. }
    split; [apply G; auto|]. split; [apply G; auto|]. rewrite Ec in D4. rewrite Rmult_1_l. lra. Qed.

(** *** The plot *)
Lemma rpairs_in l x y : In (x, y) (rpairs l) <-> exists l1 l2 l3, l = l1 ++ x :: l2 ++ y :: l3.
Proof. induction l as [|a l IH]; cbn.
  - split; [intros []|]. intros (l1 & l2 & l3 & E). destruct l1; discriminate.
  - rewrite in_app_iff, in_map_iff, IH. split.
    + intros [(z & E & I)|(l1 & l2 & l3 & ->)]; [injection E as -> ->; apply in_split in I as (l2 & l3 & ->); exists [], l2, l3; auto|exists (a :: l1), l2, l3; auto].
    + intros (l1 & l2 & l3 & E). destruct l1 as [|b l1]; cbn in E; injection E as -> ->; [left; exists y; rewrite in_app_iff; cbn; auto|right; eauto]. Qed.
Lemma edges_in stcl d : In d (concat (map rplot_simplex stcl)) <-> exists x y, d = RLine [x; y] /\ is_edge stcl x y.
Proof. rewrite in_concat. split.
  - intros (l & Il & Id). apply in_map_iff in Il as (s & <- & Is). apply in_map_iff in Id as ((x, y) & <- & Ip). apply rpairs_in in Ip as (l1 & l2 & l3 & E). exists x, y. split; auto. exists s, l1, l2, l3. auto.
  - intros (x & y & -> & s & l1 & l2 & l3 & Is & E). exists (rplot_simplex s). split; [apply in_map; auto|]. apply in_map_iff. exists (x, y). split; auto. apply rpairs_in. eauto. Qed.

Lemma nth_error_combine {A B : Type} (l : list A) (u : list B) i a b : nth_error (combine l u) i = Some (a, b) -> nth_error l i = Some a /\ nth_error u i = Some b.
Proof. revert u i. induction l as [|x l IH]; intros u i E; [destruct i; discriminate|]. destruct u as [|y u]; [destruct i; discriminate|]. destruct i as [|i]; cbn in *; [inversion E; auto|auto]. Qed.
(** the plot of a stencil that has a vertex *)
Lemma plot_unfold dim (stcl : list (list rvector)) origin plot_sphere v vs : dim <> 0%nat -> concat stcl = v :: vs ->
  length (fold_left (map2 Rmin) vs v) = dim -> length (fold_left (map2 Rmax) vs v) = dim ->
  plot_stencil dim stcl origin plot_sphere = if ((dim =? 3) || (dim =? 2))%nat then Ok (combine (fold_left (map2 Rmin) vs v) (fold_left (map2 Rmax) vs v),
    concat (map rplot_simplex stcl) ++ (if origin then [RScatter (repeat 0 dim)] else []) ++
    (if plot_sphere then match dim with 2%nat => [RLine circle_points] | 3%nat => [RSurface sphere_points] | _ => [] end else [])) else Err AssertionError.
Proof. intros D E L1 L2. unfold plot_stencil. rewrite E. destruct dim as [|dim']; [congruence|]. unfold axis_fold, bind.
  assert (Er : rsetup_plot (combine (fold_left (map2 Rmin) vs v) (fold_left (map2 Rmax) vs v)) = if ((S dim' =? 3) || (S dim' =? 2))%nat then Ok tt else Err AssertionError).
  { unfold rsetup_plot. pose proof (combine_length (fold_left (map2 Rmin) vs v) (fold_left (map2 Rmax) vs v)) as Lc. rewrite L1, L2, Nat.min_id in Lc. rewrite Lc. reflexivity. }
  rewrite Er. destruct ((S dim' =? 3) || (S dim' =? 2))%nat; reflexivity. Qed.

(** [stcl]: an array of simplices with vertices of [dim] coordinates.  The limits of the axes are
    the smallest box around the vertices; what is drawn: the edges of all simplices, the origin,
    and the unit circle or sphere, the last two if asked for; and nothing else *)
Theorem C76_stencil : forall dim (stcl : list (list rvector)) origin plot_sphere, dim = 2%nat \/ dim = 3%nat -> Forall (Forall (fun v => length v = dim)) stcl -> concat stcl <> [] ->
  exists limits ds, plot_stencil dim stcl origin plot_sphere = Ok (limits, ds) /\ length limits = dim /\
    (forall i lo hi, nth_error limits i = Some (lo, hi) ->
       (forall s v x, In s stcl -> In v s -> nth_error v i = Some x -> lo <= x <= hi) /\
       (exists s v, In s stcl /\ In v s /\ nth_error v i = Some lo) /\ (exists s v, In s stcl /\ In v s /\ nth_error v i = Some hi)) /\
    (forall x y, is_edge stcl x y -> In (RLine [x; y]) ds) /\
    (origin = true -> In (RScatter (repeat 0 dim)) ds) /\
    (plot_sphere = true -> if (dim =? 2)%nat then exists c, In (RLine c) ds /\ unit_circle c else exists g, In (RSurface g) ds /\ unit_sphere g) /\
    (forall d, In d ds ->
       (exists x y, d = RLine [x; y] /\ is_edge stcl x y) \/ origin = true /\ d = RScatter (repeat 0 dim) \/
       plot_sphere = true /\ dim = 2%nat /\ (exists c, d = RLine c /\ unit_circle c) \/ plot_sphere = true /\ dim = 3%nat /\ (exists g, d = RSurface g /\ unit_sphere g)).
Proof. intros dim stcl origin plot_sphere D W Ne. assert (D0 : dim <> 0%nat) by lia.
  destruct (concat stcl) as [|v vs] eqn:Ec; [congruence|].
  assert (Wv : Forall (fun w => length w = dim) (v :: vs)). { rewrite <- Ec. apply Forall_forall. intros w Iw. apply in_concat in Iw as (s & Is & Iw). rewrite Forall_forall in W. specialize (W s Is). rewrite Forall_forall in W. auto. }
  pose proof (Forall_inv Wv) as Lv. pose proof (Forall_inv_tail Wv) as Lvs.
  destruct (fold_axis Rmin Rle Rmin_l Rmin_r (fun x y => ltac:(unfold Rmin; destruct (Rle_dec x y); auto)) Rle_refl Rle_trans dim vs v Lv Lvs) as (L1 & B1).
  destruct (fold_axis Rmax (fun x y => y <= x) Rmax_l Rmax_r (fun x y => ltac:(unfold Rmax; destruct (Rle_dec x y); auto)) Rle_refl (fun x y z A B => Rle_trans _ _ _ B A) dim vs v Lv Lvs) as (L2 & B2).
  set (lower := fold_left (map2 Rmin) vs v) in *. set (upper := fold_left (map2 Rmax) vs v) in *.
  assert (Ll : length (combine lower upper) = dim) by (rewrite combine_length, L1, L2; lia). rewrite (plot_unfold dim stcl origin plot_sphere v vs D0 Ec L1 L2). replace ((dim =? 3) || (dim =? 2))%nat with true by (destruct D as [-> | ->]; reflexivity).
  do 2 eexists. split; [reflexivity|]. split; [exact Ll|]. split; [|split; [|split; [|split]]].
  - intros i lo hi E. assert (E12 : nth_error lower i = Some lo /\ nth_error upper i = Some hi).
    { apply nth_error_combine. exact E. }
    destruct E12 as (E1 & E2). destruct (B1 i lo E1) as (A1 & (w1 & I1 & N1)). destruct (B2 i hi E2) as (A2 & (w2 & I2 & N2)). 
    assert (Iff : forall w : rvector, In w (v :: vs) <-> In w (concat stcl)) by (intros w; rewrite Ec; tauto). split; [|split].
    + intros s w x Is Iw Ex. assert (Hw : In w (v :: vs)) by (apply Iff, in_concat; eauto). split; [exact (A1 w x Hw Ex)|exact (A2 w x Hw Ex)].
    + apply Iff, in_concat in I1 as (s & Is & Iw). exists s, w1. auto.
    + apply Iff, in_concat in I2 as (s & Is & Iw). exists s, w2. auto.
  - intros x y E. apply in_app_iff. left. apply edges_in. exists x, y. auto.
  - intros ->. apply in_app_iff. right. apply in_app_iff. left. left. reflexivity.
  - intros ->. destruct D as [Ed|Ed]; rewrite Ed; cbn [Nat.eqb].
    + exists circle_points. split; [|apply circle_ok]. rewrite !in_app_iff. right. right. left. reflexivity.
    + exists sphere_points. split; [|apply sphere_ok]. rewrite !in_app_iff. right. right. left. reflexivity.
  - intros d H. apply in_app_iff in H as [H|H]; [left; apply edges_in; auto|]. right. apply in_app_iff in H as [H|H].
    + left. destruct origin; [|destruct H]. destruct H as [<- |[]]. auto.
    + right. destruct plot_sphere; [|destruct H]. destruct D as [Ed|Ed]; rewrite Ed in H |- *; destruct H as [<- |[]]; [left|right]; split; auto; split; auto; eexists; (split; [reflexivity|]); [apply circle_ok|apply sphere_ok]. Qed.
Print Assumptions C76_stencil.
(** what cannot be plotted *)
Theorem C76_not_plotted : forall dim (stcl : list (list rvector)) origin plot_sphere, Forall (Forall (fun v => length v = dim)) stcl ->
  ((dim = 0%nat \/ concat stcl = []) -> plot_stencil dim stcl origin plot_sphere = Err ValueError) /\
  (dim <> 0%nat -> dim <> 2%nat -> dim <> 3%nat -> concat stcl <> [] -> plot_stencil dim stcl origin plot_sphere = Err AssertionError).
Proof. intros dim stcl origin plot_sphere W. split.
  - intros [->|E]; [reflexivity|]. unfold plot_stencil. rewrite E. destruct dim; reflexivity.
  - intros D0 D2 D3 Ne. destruct (concat stcl) as [|v vs] eqn:Ec; [congruence|].
    assert (Wv : Forall (fun w => length w = dim) (v :: vs)). { rewrite <- Ec. apply Forall_forall. intros w Iw. apply in_concat in Iw as (s & Is & Iw). rewrite Forall_forall in W. specialize (W s Is). rewrite Forall_forall in W. auto. }
    pose proof (Forall_inv Wv) as Lv. pose proof (Forall_inv_tail Wv) as Lvs.
    assert (Lf : forall op, length (fold_left (map2 op) vs v) = dim).
    { intros op. clear Wv Ec Ne W. revert v Lv. induction vs as [|u vs IH]; intros v Lv; cbn [fold_left]; auto. apply IH; [apply (Forall_inv_tail Lvs)|]. pose proof (Forall_inv Lvs). cbv beta in *. rewrite map2_length; lia. }
    rewrite (plot_unfold dim stcl origin plot_sphere v vs D0 Ec (Lf Rmin) (Lf Rmax)). destruct (Nat.eqb_spec dim 3); [congruence|]. destruct (Nat.eqb_spec dim 2); [congruence|]. reflexivity. Qed.
Print Assumptions C76_not_plotted.
(** hypotheses met: two triangles *)
Theorem C76_hypotheses_met : exists stcl, Forall (Forall (fun v : rvector => length v = 2%nat)) stcl /\ concat stcl <> [] /\ is_edge stcl [0; 1] [1; 2] /\ length stcl = 2%nat.
Proof. exists [[[0; 0]; [0; 1]; [1; 2]]; [[1; 1]; [2; 0]; [3; 3]]]. split; [repeat constructor|]. split; [discriminate|]. split; [|reflexivity]. exists [[0; 0]; [0; 1]; [1; 2]], [[0; 0]], [], []. split; [left; reflexivity|reflexivity]. Qed.
Print Assumptions C76_hypotheses_met.
