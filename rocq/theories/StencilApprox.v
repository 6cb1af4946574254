(** Rational stencils near the exact circle and sphere stencils are usable and stay clear of
    the centre. *)
From Coq Require Import Reals List Lia.
From Verif Require Import Base BaseFacts CoordSys CoordSysR Queue SpecMin Config SpecConfig Stencil SpecStencil StencilFacts SpecStencilApprox.
From Coq Require Import Lra Psatz.
Open Scope list_scope.
Open Scope R_scope.

Lemma rabs_between x e : Rabs x <= e -> - e <= x <= e.
Proof. unfold Rabs. destruct Rcase_abs; lra. Qed.
Lemma near_apart a r r' : near_number a r -> near_number a r' -> - / 50 <= r - r' <= / 50.
Proof. unfold near_number. intros A B. apply rabs_between in A, B. lra. Qed.
Lemma near2_length x p : near2 x p -> length x = 2%nat.
Proof. destruct x as [|a [|b [|]]]; cbn; tauto. Qed.
Lemma near3_length x p : near3 x p -> length x = 3%nat.
Proof. destruct p as [[u v] w]. destruct x as [|a [|b [|c [|]]]]; cbn; tauto. Qed.
Lemma near2_apart x p p' : near2 x p -> near2 x p' -> - / 50 <= fst p - fst p' <= / 50 /\ - / 50 <= snd p - snd p' <= / 50.
Proof. destruct x as [|a [|b [|]]]; cbn; try tauto. intros [A B] [A' B']. split; eapply near_apart; eauto. Qed.
Lemma near3_apart x u v w u' v' w' : near3 x (u, v, w) -> near3 x (u', v', w') ->
  - / 50 <= u - u' <= / 50 /\ - / 50 <= v - v' <= / 50 /\ - / 50 <= w - w' <= / 50.
Proof. destruct x as [|a [|b [|c [|]]]]; cbn; try tauto. intros (A & B & C) (A' & B' & C'). repeat split; eapply near_apart; eauto. Qed.

Lemma Forall2_nth {A B} (P : A -> B -> Prop) l m i a b : Forall2 P l m -> (i < length l)%nat -> P (nth i l a) (nth i m b).
Proof. intros F. revert i. induction F; intros [|i] L; cbn in *; try lia; auto. apply IHF. lia. Qed.
Lemma Forall2_len {A B} (P : A -> B -> Prop) l m : Forall2 P l m -> length l = length m.
Proof. induction 1; cbn; auto. Qed.
Lemma Forall2_in_l {A B} (P : A -> B -> Prop) l m x : Forall2 P l m -> In x l -> exists y, In y m /\ P x y.
Proof. induction 1; cbn; [tauto|]. intros [<-|I]; [eauto|]. destruct (IHForall2 I) as (z & Z1 & Z2). eauto. Qed.

(** ** Circle *)
Definition first2 (i : nat) : R * R := rotate (circle_angle 5 i) (0, 3 / 2).
Lemma circle5 i : (i < 5)%nat -> exists v w, nth i (get_circle_stencil 5) [] = [first2 i; v; w] /\
  5 <= norm2_2 v <= 6 /\ 5 <= norm2_2 w <= 6.
Proof. intros Hi. unfold get_circle_stencil.
  rewrite (nth_indep _ [] (map (rotate (circle_angle 5 0)) (circle_simplex 5))) by (rewrite map_length, seq_length; auto).
  rewrite (map_nth (fun i => map (rotate (circle_angle 5 i)) (circle_simplex 5))), seq_nth by auto. cbn [plus].
  pose proof (sqrt_sqrt 3 ltac:(lra)) as S. assert (Q : 0 < sqrt 3) by (apply sqrt_lt_R0; lra).
  assert (I5 : INR 5 = 5) by (cbn; lra).
  eexists _, _. split; [|split].
  - unfold circle_simplex. cbn [map]. f_equal. unfold first2. f_equal. rewrite I5. f_equal; lra.
  - rewrite rotate_norm. unfold norm2_2. cbn [fst snd]. rewrite I5. set (q := sqrt 3) in *. clearbody q. assert (17/10 <= q <= 18/10) by nra. nra.
  - rewrite rotate_norm. unfold norm2_2. cbn [fst snd]. rewrite I5. set (q := sqrt 3) in *. clearbody q. assert (17/10 <= q <= 18/10) by nra. nra. Qed.
Lemma first2_norm i : norm2_2 (first2 i) = 9 / 4.
Proof. unfold first2. rewrite rotate_norm. unfold norm2_2. cbn. lra. Qed.
Lemma cos_fifth d : (1 <= d <= 4)%nat -> cos (INR d * (2 * PI / 5)) <= 1 / 2.
Proof. intros D. pose proof PI_RGT_0 as P. rewrite <- cos_PI3.
  assert (C : forall x, PI / 3 <= x <= PI -> cos x <= cos (PI / 3)) by (intros x X; apply cos_decr_1; lra).
  assert (T : forall x, cos x = cos (2 * PI - x)). { intros x. rewrite <- (cos_neg (2 * PI - x)). replace (- (2 * PI - x)) with (x + 2 * INR 1 * PI - 4 * PI + 2 * PI - 2 * PI + 0) by (cbn; ring).
    rewrite <- (cos_period x 1). rewrite <- (cos_period (x + 2 * INR 1 * PI - 4 * PI + 2 * PI - 2 * PI + 0) 2). f_equal. cbn. ring. }
  assert (d = 1 \/ d = 2 \/ d = 3 \/ d = 4)%nat as [->|[->|[->| ->]]] by lia; cbn [INR].
  - apply C. lra.
  - apply C. lra.
  - rewrite T. apply C. lra.
  - rewrite T. apply C. lra. Qed.
Lemma first2_apart i j : (i < j)%nat -> (j < 5)%nat ->
  9 / 4 <= (fst (first2 i) - fst (first2 j)) * (fst (first2 i) - fst (first2 j)) + (snd (first2 i) - snd (first2 j)) * (snd (first2 i) - snd (first2 j)).
Proof. intros Hi Hj. unfold first2, rotate. cbn [fst snd].
  assert (C : cos (circle_angle 5 j - circle_angle 5 i) <= 1 / 2).
  { replace (circle_angle 5 j - circle_angle 5 i) with (INR (j - i) * (2 * PI / 5)); [apply cos_fifth; lia|].
    unfold circle_angle. rewrite minus_INR by lia. cbn. field. }
  rewrite cos_minus in C. pose proof (sin2_cos2 (circle_angle 5 i)) as A. pose proof (sin2_cos2 (circle_angle 5 j)) as B. unfold Rsqr in *.
  set (s := sin _) in *. set (c := cos (circle_angle 5 i)) in *. set (s' := sin (circle_angle 5 j)) in *. set (c' := cos (circle_angle 5 j)) in *. clearbody s c s' c'. nra. Qed.

Lemma circle_distinct st : near_circle 5 st -> forall i j, (i < length st)%nat -> (j < length st)%nat -> Permutation (nth i st []) (nth j st []) -> i = j.
Proof. intros N. assert (L : length st = 5%nat) by (rewrite (Forall2_len _ _ _ N); apply circle_count).
  assert (W : forall i j, (i < j)%nat -> (j < 5)%nat -> ~ Permutation (nth i st []) (nth j st [])).
  { intros i j Hij Hj P.
    pose proof (Forall2_nth _ _ _ i [] [] N ltac:(lia)) as Ni. pose proof (Forall2_nth _ _ _ j [] [] N ltac:(lia)) as Nj.
    destruct (circle5 i ltac:(lia)) as (v & w & Ei & _). destruct (circle5 j Hj) as (v' & w' & Ej & Bv & Bw). rewrite Ei in Ni. rewrite Ej in Nj.
    inversion Ni as [|x ? xs ? Nx Nxs]; subst. rewrite <- H in P.
    assert (I : In x (nth j st [])) by (apply (Permutation_in x P); left; auto).
    destruct (Forall2_in_l _ _ _ _ Nj I) as (p & Ip & Np). pose proof (near2_apart _ _ _ Nx Np) as A.
    pose proof (first2_norm i) as Ui. pose proof (first2_apart i j Hij Hj) as D. unfold norm2_2 in *.
    destruct (first2 i) as [a b], (first2 j) as [a' b']. cbn [fst snd] in *.
    assert (- (3/2) <= a <= 3/2) by nra. assert (- (3/2) <= b <= 3/2) by nra.
    destruct Ip as [<-|[<-|[<-|[]]]]; cbn [fst snd] in A; [nra| |].
    - destruct v' as [p q]. cbn in *. assert (p * p + q * q <= a * a + b * b + / 10 + / 20); [|lra]. nra.
    - destruct w' as [p q]. cbn in *. assert (p * p + q * q <= a * a + b * b + / 10 + / 20); [|lra]. nra. }
  intros i j Hi Hj P. rewrite L in *. destruct (Nat.lt_trichotomy i j) as [H|[H|H]]; auto; exfalso; [apply (W i j)|apply (W j i)]; auto. symmetry; auto. Qed.
Lemma circle_usable st : near_circle 5 st -> usable_stencil 2 st.
Proof. intros N. split; [|apply circle_distinct; auto]. apply Forall_forall. intros s Hs. destruct (Forall2_in_l _ _ _ _ N Hs) as (t & It & Nt).
  apply (In_nth _ _ []) in It as (i & Hi & <-). rewrite circle_count in Hi. destruct (circle5 i Hi) as (v & w & E & _). rewrite E in Nt.
  split; [lia|]. split; [rewrite (Forall2_len _ _ _ Nt); auto|]. apply Forall_forall. intros x Hx. destruct (Forall2_in_l _ _ _ _ Nt Hx) as (p & _ & Np). eapply near2_length; eauto. Qed.
(** every vertex: farther than 1 from the centre, coordinates below 10/3 *)
Lemma circle_clear st s x : near_circle 5 st -> In s st -> In x s ->
  exists a b, x = [a; b] /\ 1 < Qc2R a * Qc2R a + Qc2R b * Qc2R b /\ Rabs (Qc2R a) <= 10 / 3 /\ Rabs (Qc2R b) <= 10 / 3.
Proof. intros N Hs Hx. destruct (Forall2_in_l _ _ _ _ N Hs) as (t & It & Nt). apply (In_nth _ _ []) in It as (i & Hi & <-). rewrite circle_count in Hi.
  destruct (circle5 i Hi) as (v & w & E & Bv & Bw). rewrite E in Nt. destruct (Forall2_in_l _ _ _ _ Nt Hx) as (p & Ip & Np).
  assert (Bp : 9 / 4 <= norm2_2 p <= 6). { pose proof (first2_norm i). destruct Ip as [<-|[<-|[<-|[]]]]; lra. }
  destruct x as [|a [|b [|]]]; cbn in Np; try tauto. exists a, b. split; auto. destruct Np as [Na Nb]. unfold near_number, norm2_2 in *.
  destruct p as [p q]. cbn in *. assert (- (5/2) <= p <= 5/2) by nra. assert (- (5/2) <= q <= 5/2) by nra.
  apply rabs_between in Na, Nb. set (a' := Qc2R a) in *. set (b' := Qc2R b) in *. clearbody a' b'.
  split; [|split; apply Rabs_le; lra]. assert (p * p + q * q <= a' * a' + b' * b' + / 5); [|lra]. nra. Qed.

(** ** Sphere *)
Section Sphere.
  Variable qr : vec -> mat * R.
  Hypothesis Q : qr_ok qr.
  Definition first3 (i : nat) : vec := vscale 1.1 (fibonacci_point 30 i).
  Lemma first3_norm i : (i < 30)%nat -> norm2_3 (first3 i) = 1.21.
  Proof. intros Hi. pose proof (fibonacci_unit 30 i Hi) as F. unfold first3. destruct (fibonacci_point 30 i) as [[x y] z]. cbn in *.
    transitivity (1.21 * (x * x + y * y + z * z)); [lra|]. rewrite F. lra. Qed.
  Lemma signed_q_norm a x : a <> (0, 0, 0) -> norm2_3 (mv (signed_q qr a) x) = norm2_3 x.
  Proof. intros NZ. rewrite <- !dot_self, (q_sym qr Q a NZ), (q_invol qr Q a NZ). auto. Qed.
  Lemma corner_norm c : In c (tl (sphere_simplex 30)) -> norm2_3 c = 27 / 80.
  Proof. unfold sphere_simplex. cbn [tl]. set (e := 3 / sqrt (INR 30)).
    assert (E : e * e = 3 / 10). { unfold e. pose proof (sqrt_sqrt (INR 30) (pos_INR 30)) as S. assert (P : 0 < sqrt (INR 30)) by (apply sqrt_lt_R0, lt_0_INR; lia).
      assert (I : INR 30 = 30) by (rewrite INR_IZR_INZ; reflexivity). transitivity (9 / (sqrt (INR 30) * sqrt (INR 30))); [field; lra|]. rewrite S, I. lra. }
    clearbody e. intros [<-|[<-|[<-|[]]]]; cbn; lra. Qed.
  Lemma sphere30 i : (i < 30)%nat -> exists vs, nth i (get_sphere_stencil qr 30) [] = first3 i :: vs /\ length vs = 3%nat /\
    Forall (fun v => 1.5 <= norm2_3 v <= 4) vs.
  Proof. intros Hi. unfold get_sphere_stencil, fibonacci_sphere_points. rewrite map_map, map_map.
    set (f := fun i => map (fun p => vplus (mv (signed_q qr (vscale 1.1 (fibonacci_point 30 i))) p) (vscale 1.1 (fibonacci_point 30 i))) (map (mv (signed_q qr (1, 1, 1))) (sphere_simplex 30))).
    change (map _ (seq 0 30)) with (map f (seq 0 30)).
    rewrite (nth_indep _ [] (f 0%nat)) by (rewrite map_length, seq_length; auto). rewrite map_nth, seq_nth by auto. cbn [plus]. unfold f.
    change (vscale 1.1 (fibonacci_point 30 i)) with (first3 i).
    pose proof (first3_norm i Hi) as N. set (pos := first3 i) in *. assert (NZ : pos <> (0, 0, 0)) by (intros X; rewrite X in N; cbn in N; lra). clearbody pos.
    set (g := fun c => vplus (mv (signed_q qr pos) (mv (signed_q qr (1, 1, 1)) c)) pos).
    exists (map g (tl (sphere_simplex 30))). split; [|split].
    - assert (E : sphere_simplex 30 = (0, 0, 0) :: tl (sphere_simplex 30)) by reflexivity. rewrite map_map. rewrite E at 1. cbn [map]. f_equal.
      destruct (signed_q qr (1, 1, 1)) as [[[[m1 m2] m3] [[m4 m5] m6]] [[m7 m8] m9]], (signed_q qr pos) as [[[[n1 n2] n3] [[n4 n5] n6]] [[n7 n8] n9]], pos as [[x y] z]. cbn.
      f_equal; [f_equal|]; ring.
    - reflexivity.
    - apply Forall_forall. intros v Hv. apply in_map_iff in Hv as (c & <- & Hc). unfold g.
      assert (Hc' : In c (sphere_simplex 30)) by (right; exact Hc).
      pose proof (corner_outward qr Q 30 c ltac:(lia) Hc') as O. pose proof (corner_norm c Hc) as Nc.
      set (w := mv (signed_q qr (1, 1, 1)) c) in *. assert (Nw : norm2_3 w = 27 / 80) by (unfold w; rewrite signed_q_norm; auto; apply ones_nz). clearbody w.
      destruct (q_dot qr Q pos NZ w) as (k & Hk & D). assert (Nu : norm2_3 (mv (signed_q qr pos) w) = 27 / 80) by (rewrite signed_q_norm; auto).
      set (u := mv (signed_q qr pos) w) in *. clearbody u.
      assert (D0 : 0 <= dot pos u) by (rewrite D; apply Rmult_le_pos; lra).
      destruct u as [[x y] z], pos as [[x' y'] z']. cbn in *. split; [nra|].
      assert (0 <= (x - x') * (x - x') + (y - y') * (y - y') + (z - z') * (z - z')) by (repeat apply Rplus_le_le_0_compat; apply Rle_0_sqr). nra. Qed.
  Lemma first3_apart i j : (i < j)%nat -> (j < 30)%nat -> / 15 <= snd (first3 j) - snd (first3 i).
  Proof. intros Hi Hj. unfold first3, fibonacci_point. cbn [vscale snd]. assert (I : INR 30 = 30) by (rewrite INR_IZR_INZ; reflexivity). rewrite I.
    assert (INR i + 1 <= INR j). { rewrite <- S_INR. apply le_INR. lia. } lra. Qed.
  Lemma sphere_distinct st : near_sphere qr 30 st -> forall i j, (i < length st)%nat -> (j < length st)%nat -> Permutation (nth i st []) (nth j st []) -> i = j.
  Proof. intros N. assert (L : length st = 30%nat) by (rewrite (Forall2_len _ _ _ N); apply sphere_count).
    assert (W : forall i j, (i < j)%nat -> (j < 30)%nat -> ~ Permutation (nth i st []) (nth j st [])).
    { intros i j Hij Hj P.
      pose proof (Forall2_nth _ _ _ i [] [] N ltac:(lia)) as Ni. pose proof (Forall2_nth _ _ _ j [] [] N ltac:(lia)) as Nj.
      destruct (sphere30 i ltac:(lia)) as (vs & Ei & _). destruct (sphere30 j Hj) as (vs' & Ej & _ & Bv). rewrite Ei in Ni. rewrite Ej in Nj.
      inversion Ni as [|x ? xs ? Nx Nxs]; subst. rewrite <- H in P.
      assert (I : In x (nth j st [])) by (apply (Permutation_in x P); left; auto).
      destruct (Forall2_in_l _ _ _ _ Nj I) as (p & Ip & Np).
      pose proof (first3_norm i ltac:(lia)) as Ui. pose proof (first3_apart i j Hij Hj) as D.
      destruct (first3 i) as [[a b] c], (first3 j) as [[a' b'] c'], p as [[u v] w]. pose proof (near3_apart _ _ _ _ _ _ _ Nx Np) as A. cbn [norm2_3 snd] in *.
      assert (- (11/10) <= a <= 11/10) by nra. assert (- (11/10) <= b <= 11/10) by nra. assert (- (11/10) <= c <= 11/10) by nra.
      destruct Ip as [E|Ip]; [injection E as -> -> ->; lra|].
      rewrite Forall_forall in Bv. specialize (Bv _ Ip). cbn in Bv.
      assert (u * u <= a * a + / 20) by nra. assert (v * v <= b * b + / 20) by nra. assert (w * w <= c * c + / 20) by nra. lra. }
    intros i j Hi Hj P. rewrite L in *. destruct (Nat.lt_trichotomy i j) as [H|[H|H]]; auto; exfalso; [apply (W i j)|apply (W j i)]; auto. symmetry; auto. Qed.
  Lemma sphere_usable st : near_sphere qr 30 st -> usable_stencil 3 st.
  Proof. intros N. split; [|apply sphere_distinct; auto]. apply Forall_forall. intros s Hs. destruct (Forall2_in_l _ _ _ _ N Hs) as (t & It & Nt).
    apply (In_nth _ _ []) in It as (i & Hi & <-). rewrite sphere_count in Hi. destruct (sphere30 i Hi) as (vs & E & Lv & _). rewrite E in Nt.
    split; [lia|]. split; [rewrite (Forall2_len _ _ _ Nt); cbn; auto|]. apply Forall_forall. intros x Hx. destruct (Forall2_in_l _ _ _ _ Nt Hx) as (p & _ & Np). eapply near3_length; eauto. Qed.
  Lemma sphere_clear st s x : near_sphere qr 30 st -> In s st -> In x s ->
    exists a b c, x = [a; b; c] /\ 1 < Qc2R a * Qc2R a + Qc2R b * Qc2R b + Qc2R c * Qc2R c /\ Rabs (Qc2R a) <= 10 / 3 /\ Rabs (Qc2R b) <= 10 / 3 /\ Rabs (Qc2R c) <= 10 / 3.
  Proof. intros N Hs Hx. destruct (Forall2_in_l _ _ _ _ N Hs) as (t & It & Nt). apply (In_nth _ _ []) in It as (i & Hi & <-). rewrite sphere_count in Hi.
    destruct (sphere30 i Hi) as (vs & E & _ & Bv). rewrite E in Nt. destruct (Forall2_in_l _ _ _ _ Nt Hx) as (p & Ip & Np).
    assert (Bp : 1.21 <= norm2_3 p <= 4). { pose proof (first3_norm i Hi). destruct Ip as [<-|Ip]; [lra|]. rewrite Forall_forall in Bv. specialize (Bv _ Ip). cbn beta in Bv. lra. }
    destruct p as [[p q] r]. destruct x as [|a [|b [|c [|]]]]; cbn in Np; try tauto. exists a, b, c. split; auto. destruct Np as (Na & Nb & Nc). unfold near_number, norm2_3 in *.
    assert (- 2 <= p <= 2) by nra. assert (- 2 <= q <= 2) by nra. assert (- 2 <= r <= 2) by nra.
    apply rabs_between in Na, Nb, Nc. set (a' := Qc2R a) in *. set (b' := Qc2R b) in *. set (c' := Qc2R c) in *. clearbody a' b' c'.
    split; [|split; [|split]; apply Rabs_le; lra].
    (* the vector moves by at most sqrt 3 / 100 *)
    set (x := a' - p) in *. set (y := b' - q) in *. set (z := c' - r) in *. replace a' with (p + x) by (unfold x; ring). replace b' with (q + y) by (unfold y; ring). replace c' with (r + z) by (unfold z; ring).
    clearbody x y z. assert (S2 : x * x + y * y + z * z <= 3 / 10000) by nra.
    set (n := p * p + q * q + r * r) in *.
    assert (CS : (p * x + q * y + r * z) * (p * x + q * y + r * z) <= n * (x * x + y * y + z * z)).
    { unfold n. assert (0 <= (p * y - q * x) * (p * y - q * x)) by apply Rle_0_sqr. assert (0 <= (p * z - r * x) * (p * z - r * x)) by apply Rle_0_sqr. assert (0 <= (q * z - r * y) * (q * z - r * y)) by apply Rle_0_sqr. nra. }
    set (d := p * x + q * y + r * z) in *. assert (D2 : d * d <= 4 * (3 / 10000)) by nra. assert (- (4/100) <= d) by nra.
    replace ((p + x) * (p + x) + (q + y) * (q + y) + (r + z) * (r + z)) with (n + 2 * d + (x * x + y * y + z * z)) by (unfold n, d; ring).
    assert (0 <= x * x + y * y + z * z) by nra. lra. Qed.
End Sphere.
