(** The default stencils in double precision, scaled by the cutoff, are resolved. *)
From Coq Require Import ZArith Reals Psatz List Permutation.
From Flocq Require Import Core BinarySingleNaN Relative.
From Verif Require Import Base BaseFacts CoordSys CellListFacts Queue QueueFacts Float FloatFacts FloatVector FloatVectorFacts FloatMin FloatCell SpecFloatCell FloatCellNum FloatCellFacts FloatController SpecFloatSearch FloatStencil Mesh SpecMesh FloatMesh SpecFloatMesh FloatMeshNum FloatMeshFacts
  Stencil SpecStencil StencilFacts StencilApprox SpecFloatStencil FloatStencilFacts.
From Coq Require Import Lra.
Import ListNotations.
Open Scope list_scope.
Open Scope R_scope.

Definition fst2 (p : fpoint) : R * R := (B2R (nth 0 p (B754_zero false)), B2R (nth 1 p (B754_zero false))).
Lemma fnear2_inv x p : fnear2 x p -> exists a b, x = [a; b] /\ fin a /\ fin b /\ Rabs (val a - fst p) <= 1 / 100 /\ Rabs (val b - snd p) <= 1 / 100.
Proof. destruct x as [|a [|b [|]]]; cbn; try tauto. intros ((F1 & A) & (F2 & B)). exists a, b. auto. Qed.
Lemma fnear3_inv x u v w : fnear3 x (u, v, w) -> exists a b c, x = [a; b; c] /\ fin a /\ fin b /\ fin c /\ Rabs (val a - u) <= 1 / 100 /\ Rabs (val b - v) <= 1 / 100 /\ Rabs (val c - w) <= 1 / 100.
Proof. destruct x as [|a [|b [|c [|]]]]; cbn; try tauto. intros ((F1 & A) & (F2 & B) & (F3 & C)). exists a, b, c. repeat split; auto. Qed.

(** different simplices of the circle: some coordinate differs by 1/64 even after errors of 1/100 *)
Lemma circle_far i j p a b a' b' : (i <> j)%nat -> (i < 5)%nat -> (j < 5)%nat -> In p (nth j (get_circle_stencil 5) []) ->
  Rabs (a - fst (first2 i)) <= 1 / 100 -> Rabs (b - snd (first2 i)) <= 1 / 100 -> Rabs (a' - fst p) <= 1 / 100 -> Rabs (b' - snd p) <= 1 / 100 ->
  / 64 <= Rabs (a - a') \/ / 64 <= Rabs (b - b').
Proof. intros N Hi Hj Hp Ha Hb Ha' Hb'. destruct (Rle_or_lt (/ 64) (Rabs (a - a'))) as [|Da]; auto. destruct (Rle_or_lt (/ 64) (Rabs (b - b'))) as [|Db]; auto. exfalso. apply Rlt_le in Da, Db. rewrite abs_le in *.
  pose proof (first2_norm i) as Ui. destruct (circle5 j Hj) as (v & w & Ej & Bv & Bw). rewrite Ej in Hp.
  assert (D : 9 / 4 <= (fst (first2 i) - fst (first2 j)) * (fst (first2 i) - fst (first2 j)) + (snd (first2 i) - snd (first2 j)) * (snd (first2 i) - snd (first2 j))).
  { destruct (Nat.lt_trichotomy i j) as [L|[L|L]]; [apply first2_apart; auto|lia|]. pose proof (first2_apart j i L Hi). nra. }
  unfold norm2_2 in *. destruct (first2 i) as [x y], (first2 j) as [x' y']. cbn [fst snd] in *. assert (- (3/2) <= x <= 3/2) by nra. assert (- (3/2) <= y <= 3/2) by nra.
  destruct Hp as [<-|[<-|[<-|[]]]]; cbn [fst snd] in *; [nra| |].
  - destruct v as [p q]. cbn in *. assert (p * p <= x * x + / 8) by nra. assert (q * q <= y * y + / 8) by nra. lra.
  - destruct w as [p q]. cbn in *. assert (p * p <= x * x + / 8) by nra. assert (q * q <= y * y + / 8) by nra. lra. Qed.
Lemma circle_size i p : (i < 5)%nat -> In p (nth i (get_circle_stencil 5) []) -> Rabs (fst p) <= 3 /\ Rabs (snd p) <= 3.
Proof. intros Hi Hp. destruct (circle5 i Hi) as (v & w & E & Bv & Bw). rewrite E in Hp. pose proof (first2_norm i) as N. assert (B : norm2_2 p <= 9) by (destruct Hp as [<-|[<-|[<-|[]]]]; lra).
  unfold norm2_2 in B. rewrite !abs_le. split; nra. Qed.

Lemma sq_near u x : - (36 / 1000) <= u - x <= 36 / 1000 -> - (11 / 10) <= x <= 11 / 10 -> u * u <= x * x + 9 / 100.
Proof. intros H1 H2. nra. Qed.
Lemma unit_bound x y z : x * x + y * y + z * z <= 121 / 100 -> - (11/10) <= x <= 11/10.
Proof. intros H. pose proof (Rle_0_sqr y). pose proof (Rle_0_sqr z). unfold Rsqr in *. split; nra. Qed.

Section Default.
  Variables (boxes : list fbox) (c : double) (st : list fsimplex).
  Hypothesis Gb : Forall good_box boxes.
  Hypothesis Gc : good_cutoff c.
  Hypothesis Rc : resolved_cutoff boxes c.
  Lemma gap_ok k b : nth_error boxes k = Some b -> resolution b <= / 64 * val c / 2 /\ 2 * 2 * val c <= 256 * fbox_size b /\ resolution b <= fbox_size b /\ 16 * pw (-53) * 4 < / 64.
  Proof. intros Eb. unfold resolved_cutoff in Rc. rewrite Forall_forall in Rc. destruct (Rc b (nth_error_In _ _ Eb)) as (H1 & H2). rewrite Forall_forall in Gb. pose proof (Gb b (nth_error_In _ _ Eb)) as G1. pose proof (sp b G1). pose proof (c_pos c Gc). split; [lra|]. split; [lra|]. split; [lra|].
    assert (pw (-53) < pw (-12)) by (apply bpow_lt; lia). change (pw (-12)) with (/ 4096) in *. lra. Qed.
  Lemma scaled64 : (forall s v, In s st -> In v s -> length v = length boxes /\ forall x, In x v -> fin x /\ Rabs (val x) <= 4) -> Forall (fun b => 8 * val c <= 256 * fbox_size b) boxes ->
    (forall i j s t, i <> j -> nth_error st i = Some s -> nth_error st j = Some t -> exists v, In v s /\ forall w, In w t ->
      exists k x y, (k < length boxes)%nat /\ nth_error v k = Some x /\ nth_error w k = Some y /\ / 64 <= Rabs (val x - val y)) -> resolved_stencil boxes (fscale_stencil c st).
  Proof. intros V B A. apply (scaled_resolved boxes c st 4 (fun _ => / 64)); auto.
    - assert (pw (-500) <= pw 2) by (apply pw_le; lia). assert (pw 2 <= pw 500) by (apply pw_le; lia). change (pw 2) with 4 in *. lra.
    - intros k b Eb. destruct (gap_ok k b Eb) as (H1 & H2 & H3 & H4). rewrite Forall_forall in B. specialize (B b (nth_error_In _ _ Eb)). repeat split; auto; lra. Qed.
  Hypothesis Sz : Forall (fun b => val c <= 32 * fbox_size b) boxes.
  Lemma sz8 : Forall (fun b => 8 * val c <= 256 * fbox_size b) boxes.
  Proof. eapply Forall_impl; [|exact Sz]. cbv beta. intros b H. lra. Qed.

  Lemma circle_resolved : length boxes = 2%nat -> fnear_circle 5 st -> resolved_stencil boxes (fscale_stencil c st).
  Proof. intros Lb N. assert (L : length st = 5%nat) by (rewrite (F2_length _ _ _ N); apply circle_count).
    assert (VX : forall i s v, nth_error st i = Some s -> In v s -> exists p, In p (nth i (get_circle_stencil 5) []) /\ fnear2 v p /\ (i < 5)%nat).
    { intros i s v Es Hv. assert (Hi : (i < 5)%nat) by (rewrite <- L; apply nth_error_Some; congruence). pose proof (Forall2_nth _ _ _ i [] [] N ltac:(lia)) as Ni. rewrite (nth_error_nth _ _ _ Es) in Ni. destruct (Forall2_in_l _ _ _ _ Ni Hv) as (p & Hp & Np). eauto. }
    apply scaled64; [|exact sz8|].
    - intros s v Hs Hv. apply In_nth_error in Hs as (i & Es). destruct (VX i s v Es Hv) as (p & Hp & Np & Hi). destruct (fnear2_inv v p Np) as (a & b & -> & Fa & Fb & Ea & Eb). split; [rewrite Lb; reflexivity|].
      destruct (circle_size i p Hi Hp) as (B1 & B2). rewrite abs_le in *. intros x [<-|[<-|[]]]; (split; [auto|rewrite abs_le; lra]).
    - intros i j s t Nij Es Et. assert (Hi : (i < 5)%nat) by (rewrite <- L; apply nth_error_Some; congruence). assert (Hj : (j < 5)%nat) by (rewrite <- L; apply nth_error_Some; congruence).
      pose proof (Forall2_nth _ _ _ i [] [] N ltac:(lia)) as Ni. rewrite (nth_error_nth _ _ _ Es) in Ni. destruct (circle5 i Hi) as (p & q & Ei & _). rewrite Ei in Ni. inversion Ni as [|x ? xs ? Nx Nxs]; subst.
      exists x. split; [left; auto|]. intros w Hw. destruct (VX j t w Et Hw) as (r & Hr & Nr & _). destruct (fnear2_inv x _ Nx) as (a & b & -> & Fa & Fb & Ea & Eb). destruct (fnear2_inv w _ Nr) as (a' & b' & -> & Fa' & Fb' & Ea' & Eb').
      destruct (circle_far i j r (val a) (val b) (val a') (val b') Nij Hi Hj Hr Ea Eb Ea' Eb') as [G|G].
      + exists 0%nat, a, a'. split; [lia|]. auto.
      + exists 1%nat, b, b'. split; [lia|]. auto. Qed.

  Section Sphere.
    Variable qr : vec -> mat * R.
    Hypothesis Q : qr_ok qr.
    Lemma sphere_far i j p a b d a' b' d' : (i <> j)%nat -> (i < 30)%nat -> (j < 30)%nat -> In p (nth j (get_sphere_stencil qr 30) []) ->
      let '(x, y, z) := first3 i in let '(u, v, w) := p in
      Rabs (a - x) <= 1 / 100 -> Rabs (b - y) <= 1 / 100 -> Rabs (d - z) <= 1 / 100 -> Rabs (a' - u) <= 1 / 100 -> Rabs (b' - v) <= 1 / 100 -> Rabs (d' - w) <= 1 / 100 ->
      / 64 <= Rabs (a - a') \/ / 64 <= Rabs (b - b') \/ / 64 <= Rabs (d - d').
    Proof. intros N Hi Hj Hp. pose proof (first3_norm i Hi) as Ui. destruct (sphere30 qr Q j Hj) as (vs & Ej & _ & Bv). rewrite Ej in Hp.
      assert (D : / 15 <= snd (first3 j) - snd (first3 i) \/ / 15 <= snd (first3 i) - snd (first3 j)). { destruct (Nat.lt_trichotomy i j) as [L|[L|L]]; [left; apply first3_apart; auto|lia|right; apply first3_apart; auto]. }
      destruct (first3 i) as [[x y] z], (first3 j) as [[x' y'] z'], p as [[u v] w]. cbn [snd norm2_3] in *. intros Ha Hb Hd Ha' Hb' Hd'.
      destruct (Rle_or_lt (/ 64) (Rabs (a - a'))) as [|Da]; auto. destruct (Rle_or_lt (/ 64) (Rabs (b - b'))) as [|Db]; auto. destruct (Rle_or_lt (/ 64) (Rabs (d - d'))) as [|Dd]; auto. exfalso. apply Rlt_le in Da, Db, Dd. rewrite abs_le in *.
      assert (- (11/10) <= x <= 11/10) by (apply (unit_bound x y z); lra). assert (- (11/10) <= y <= 11/10) by (apply (unit_bound y x z); lra). assert (- (11/10) <= z <= 11/10) by (apply (unit_bound z x y); lra).
      destruct Hp as [E|Hp]; [injection E as -> -> ->; destruct D; lra|]. rewrite Forall_forall in Bv. specialize (Bv _ Hp). cbn in Bv.
      assert (u * u <= x * x + 9 / 100) by (apply sq_near; lra). assert (v * v <= y * y + 9 / 100) by (apply sq_near; lra). assert (w * w <= z * z + 9 / 100) by (apply sq_near; lra). lra. Qed.
    Lemma sphere_size i u v w : (i < 30)%nat -> In (u, v, w) (nth i (get_sphere_stencil qr 30) []) -> Rabs u <= 3 /\ Rabs v <= 3 /\ Rabs w <= 3.
    Proof. intros Hi Hp. destruct (sphere30 qr Q i Hi) as (vs & E & _ & Bv). rewrite E in Hp. pose proof (first3_norm i Hi) as N. assert (B : norm2_3 (u, v, w) <= 9). { destruct Hp as [<-|Hp]; [lra|]. rewrite Forall_forall in Bv. specialize (Bv _ Hp). cbv beta in Bv. lra. }
      cbn in B. rewrite !abs_le. repeat split; nra. Qed.
    Lemma sphere_resolved : length boxes = 3%nat -> fnear_sphere qr 30 st -> resolved_stencil boxes (fscale_stencil c st).
    Proof. intros Lb N. assert (L : length st = 30%nat) by (rewrite (F2_length _ _ _ N); apply sphere_count).
      assert (VX : forall i s v, nth_error st i = Some s -> In v s -> exists p, In p (nth i (get_sphere_stencil qr 30) []) /\ fnear3 v p /\ (i < 30)%nat).
      { intros i s v Es Hv. assert (Hi : (i < 30)%nat) by (rewrite <- L; apply nth_error_Some; congruence). pose proof (Forall2_nth _ _ _ i [] [] N ltac:(lia)) as Ni. rewrite (nth_error_nth _ _ _ Es) in Ni. destruct (Forall2_in_l _ _ _ _ Ni Hv) as (p & Hp & Np). eauto. }
      apply scaled64; [|exact sz8|].
      - intros s v Hs Hv. apply In_nth_error in Hs as (i & Es). destruct (VX i s v Es Hv) as ([[p q] r] & Hp & Np & Hi). destruct (fnear3_inv v p q r Np) as (a & b & d & -> & Fa & Fb & Fd & Ea & Eb & Ed). split; [rewrite Lb; reflexivity|].
        destruct (sphere_size i p q r Hi Hp) as (B1 & B2 & B3). rewrite abs_le in *. intros x [<-|[<-|[<-|[]]]]; (split; [auto|rewrite abs_le; lra]).
      - intros i j s t Nij Es Et. assert (Hi : (i < 30)%nat) by (rewrite <- L; apply nth_error_Some; congruence). assert (Hj : (j < 30)%nat) by (rewrite <- L; apply nth_error_Some; congruence).
        pose proof (Forall2_nth _ _ _ i [] [] N ltac:(lia)) as Ni. rewrite (nth_error_nth _ _ _ Es) in Ni. destruct (sphere30 qr Q i Hi) as (vs & Ei & _). rewrite Ei in Ni. inversion Ni as [|x ? xs ? Nx Nxs]; subst.
        exists x. split; [left; auto|]. intros w Hw. destruct (VX j t w Et Hw) as ([[p q] r] & Hr & Nr & _). pose proof (sphere_far i j (p, q, r)) as SF. destruct (first3 i) as [[u v] z]. destruct (fnear3_inv x _ _ _ Nx) as (a & b & d & -> & Fa & Fb & Fd & Ea & Eb & Ed). destruct (fnear3_inv w _ _ _ Nr) as (a' & b' & d' & -> & Fa' & Fb' & Fd' & Ea' & Eb' & Ed').
        destruct (SF (val a) (val b) (val d) (val a') (val b') (val d') Nij Hi Hj Hr Ea Eb Ed Ea' Eb' Ed') as [G|[G|G]].
        + exists 0%nat, a, a'. split; [lia|]. auto.
        + exists 1%nat, b, b'. split; [lia|]. auto.
        + exists 2%nat, d, d'. split; [lia|]. auto. Qed.
  End Sphere.
End Default.

(** the mesh stencil in other dimensions *)
Lemma half5 : fin (of_dyadic 5 (-1)) /\ val (of_dyadic 5 (-1)) = 5 / 2.
Proof. destruct (of_dyadic_val 5 (-1) ltac:(lia) ltac:(lia)) as (F & V). split; [exact F|]. rewrite V. change (pw (-1)) with (/ 2). lra. Qed.
Lemma auto_resolved qr boxes c st : qr_ok qr -> Forall good_box boxes -> good_cutoff c -> resolved_cutoff boxes c ->
  auto_fstencil qr (length boxes) st -> resolved_stencil boxes (fscale_stencil c st).
Proof. intros Q Gb Gc Rc A. assert (Sz : Forall (fun b => val c <= 12 * fbox_size b) boxes) by (eapply Forall_impl; [|exact Rc]; cbv beta; intros b H; apply H). assert (Sz' : Forall (fun b => val c <= 32 * fbox_size b) boxes).
  { apply Forall_forall. intros b Hb. rewrite Forall_forall in Sz, Gb. specialize (Sz b Hb). pose proof (sp b (Gb b Hb)). lra. }
  assert (M : fget_auto_mesh_stencil (length boxes) = Ok st -> resolved_stencil boxes (fscale_stencil c st)).
  { intros E. unfold fget_auto_mesh_stencil in E. destruct half5 as (F5 & V5).
    destruct (mesh_stencil_resolved boxes c (of_dyadic 5 (-1)) (repeat 3%nat (length boxes)) Gb Gc F5) as (st' & E' & H & _).
    - rewrite V5. assert (pw (-400) <= pw 1) by (apply pw_le; lia). assert (pw 2 <= pw 399) by (apply pw_le; lia). change (pw 1) with 2 in *. change (pw 2) with 4 in *. lra.
    - apply repeat_length.
    - apply Forall_forall. intros m Hm. apply repeat_spec in Hm. subst m. split; [lia|]. assert (pw 2 <= pw 36) by (apply pw_le; lia). change (pw 2) with 4 in *. cbn. lra.
    - rewrite V5. unfold resolved_cutoff in Rc. clear -Gb Rc Sz. induction boxes as [|b bs IH]; cbn [length repeat]; constructor; [|apply IH; eapply Forall_inv_tail; eauto].
      apply Forall_inv in Gb, Rc, Sz. pose proof (res_gt b Gb). pose proof (sp b Gb). replace (INR 3) with 3 by (cbn; lra). cbv beta in *. lra.
    - rewrite E in E'. injection E' as <-. exact H. }
  destruct (length boxes) as [|[|[|[|n]]]] eqn:L; cbn [auto_fstencil] in A; auto.
  - apply circle_resolved; auto.
  - eapply sphere_resolved; eauto. Qed.
