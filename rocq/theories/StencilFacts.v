(** The stencils stay clear of the refined node (C17). *)
From Coq Require Import Reals List Lia Lra.
From Verif Require Import Stencil SpecStencil.
From Coq Require Import Lra.
Import ListNotations.
Open Scope R_scope.

Lemma rotate_norm phi p : norm2_2 (rotate phi p) = norm2_2 p.
Proof. unfold norm2_2, rotate. cbn [fst snd]. pose proof (sin2_cos2 phi) as H. unfold Rsqr in H.
  set (s := sin phi) in *. set (c := cos phi) in *. destruct p as [x y]; cbn.
  transitivity ((s * s + c * c) * (x * x + y * y)); [ring|]. rewrite H. ring. Qed.

Lemma circle_vertices n s : (1 <= n)%nat -> In s (get_circle_stencil n) ->
  length s = 3%nat /\ Forall (fun p => 1.5 * 1.5 <= norm2_2 p) s /\ full_triangle s.
Proof. intros Hn Hs. unfold get_circle_stencil in Hs. apply in_map_iff in Hs as (i & <- & _). set (phi := circle_angle n i). clearbody phi.
  split; [reflexivity|]. assert (N : 0 < / INR n) by (apply Rinv_0_lt_compat, lt_0_INR; lia).
  assert (Q : 0 < sqrt 3) by (apply sqrt_lt_R0; lra). unfold circle_simplex, Rdiv. set (h := / INR n) in *. set (q := sqrt 3) in *. clearbody h q. split.
  - apply Forall_forall. intros p Hp. apply in_map_iff in Hp as (p' & <- & Hp). rewrite rotate_norm. unfold norm2_2.
    assert (QH : 0 < q * / 2 * 5 * h) by (repeat apply Rmult_lt_0_compat; lra).
    destruct Hp as [<- |[<- |[<- |[]]]]; cbn [fst snd]; nra.
  - pose proof (sin2_cos2 phi) as H. unfold Rsqr in H. unfold full_triangle, rotate. cbn [map fst snd].
    set (s := sin phi) in *. set (c := cos phi) in *. clearbody s c. intros a b E1 E2.
    assert (P1 : (a - b) * h = 0).
    { apply (f_equal (fun t => c * t)) in E1. apply (f_equal (fun t => s * t)) in E2.
      assert (X : (s * s + c * c) * ((a - b) * h) * (5 / 2) = 0) by (rewrite Rmult_0_r in E1, E2; lra). rewrite H in X. lra. }
    assert (P2 : (a + b) * (h * q) = 0).
    { apply (f_equal (fun t => - s * t)) in E1. apply (f_equal (fun t => c * t)) in E2.
      assert (X : (s * s + c * c) * ((a + b) * (h * q)) * (5 / 2) = 0) by (rewrite Rmult_0_r in E1, E2; lra). rewrite H in X. lra. }
    apply Rmult_integral in P1 as [P1|P1]; [|lra]. apply Rmult_integral in P2 as [P2|P2]; [lra|]. pose proof (Rmult_lt_0_compat _ _ N Q). lra. Qed.

Lemma circle_count n : length (get_circle_stencil n) = n.
Proof. unfold get_circle_stencil. rewrite map_length, seq_length. auto. Qed.

(** ** Fibonacci points *)
Lemma fibonacci_unit n i : (i < n)%nat -> norm2_3 (fibonacci_point n i) = 1.
Proof. intros Hi. unfold fibonacci_point, norm2_3. set (z := (INR i + 0.5) * (2 / INR n) - 1). set (phi := INR _ * _).
  assert (Hz : z * z <= 1).
  { assert (N : 0 < INR n) by (apply lt_0_INR; lia). assert (I0 : 0 <= INR i) by apply pos_INR.
    assert (I1 : INR i + 1 <= INR n). { rewrite <- S_INR. apply le_INR. lia. }
    assert (Z1 : z <= 1). { unfold z. assert (X : (INR i + 0.5) * (2 / INR n) <= 2); [|lra]. apply (Rmult_le_reg_r (INR n)); auto.
      replace ((INR i + 0.5) * (2 / INR n) * INR n) with ((INR i + 0.5) * 2) by (field; lra). lra. }
    assert (Z0 : -1 <= z). { unfold z. assert (X : 0 <= (INR i + 0.5) * (2 / INR n)); [|lra]. apply Rmult_le_pos; [lra|]. apply Rlt_le, Rdiv_lt_0_compat; lra. }
    nra. }
  pose proof (sin2_cos2 phi) as H. unfold Rsqr in H. pose proof (sqrt_sqrt (1 - z * z) ltac:(lra)) as S. set (r := sqrt (1 - z * z)) in *.
  set (s := sin phi) in *. set (c := cos phi) in *. clearbody s c r z. transitivity ((s * s + c * c) * (r * r) + z * z); [ring|]. rewrite H, S. ring. Qed.

(** ** Linear algebra *)
Lemma dot_self a : dot a a = norm2_3 a.
Proof. destruct a as [[x y] z]. reflexivity. Qed.
Lemma dot_comm a b : dot a b = dot b a.
Proof. destruct a as [[x y] z], b as [[u v] w]. cbn. ring. Qed.
Lemma mv_scale c m v : mv (mscale c m) v = vscale c (mv m v).
Proof. destruct m as [[[[m1 m2] m3] [[m4 m5] m6]] [[m7 m8] m9]], v as [[x y] z]. cbn. f_equal; [f_equal|]; ring. Qed.
Lemma mv_vscale c m v : mv m (vscale c v) = vscale c (mv m v).
Proof. destruct m as [[[[m1 m2] m3] [[m4 m5] m6]] [[m7 m8] m9]], v as [[x y] z]. cbn. f_equal; [f_equal|]; ring. Qed.
Lemma mv_plus m v w : mv m (vplus v w) = vplus (mv m v) (mv m w).
Proof. destruct m as [[[[m1 m2] m3] [[m4 m5] m6]] [[m7 m8] m9]], v as [[x y] z], w as [[a b] c]. cbn. f_equal; [f_equal|]; ring. Qed.
Lemma dot_scale_l c a b : dot (vscale c a) b = c * dot a b.
Proof. destruct a as [[x y] z], b as [[u v] w]. cbn. ring. Qed.
Lemma dot_scale_r c a b : dot a (vscale c b) = c * dot a b.
Proof. destruct a as [[x y] z], b as [[u v] w]. cbn. ring. Qed.
Lemma sign_sq r : r <> 0 -> sign r * sign r = 1.
Proof. intros H. unfold sign. destruct (Rlt_dec r 0); [ring|]. destruct (Rlt_dec 0 r); [ring|lra]. Qed.
Lemma sign_abs r : r <> 0 -> 0 < sign r * r.
Proof. intros H. unfold sign. destruct (Rlt_dec r 0); [lra|]. destruct (Rlt_dec 0 r); lra. Qed.

Section Q.
  Variable qr : vec -> mat * R.
  Hypothesis Q : qr_ok qr.
  Variable a : vec.
  Hypothesis A : a <> (0, 0, 0).
  Let q := signed_q qr a.
  Lemma q_sym x y : dot (mv q x) y = dot x (mv q y).
  Proof. unfold q, signed_q. specialize (Q a A). destruct (qr a) as [m r]. destruct Q as (S & _ & _). rewrite !mv_scale, dot_scale_l, dot_scale_r, S. auto. Qed.
  Lemma r_nonzero : snd (qr a) <> 0.
  Proof. specialize (Q a A). destruct (qr a) as [m r]. destruct Q as (_ & _ & E). cbn. intros ->. apply A. rewrite <- E.
    destruct m as [[[[m1 m2] m3] [[m4 m5] m6]] [[m7 m8] m9]]. cbn. f_equal; [f_equal|]; ring. Qed.
  Lemma q_invol x : mv q (mv q x) = x.
  Proof. pose proof r_nonzero as NZ. unfold q, signed_q. specialize (Q a A). destruct (qr a) as [m r]. cbn in NZ. destruct Q as (_ & I & _).
    rewrite !mv_scale, mv_vscale, I. pose proof (sign_sq r NZ). destruct x as [[x y] z]. cbn. rewrite <- !Rmult_assoc, H. f_equal; [f_equal|]; ring. Qed.
  Lemma q_dir : exists c, 0 < c /\ a = vscale c (mv q (1, 0, 0)).
  Proof. pose proof r_nonzero as NZ. unfold q, signed_q. specialize (Q a A). destruct (qr a) as [m r]. cbn in NZ. destruct Q as (_ & _ & E).
    exists (sign r * r). split; [apply sign_abs; auto|]. rewrite mv_scale, <- E.
    replace (r, 0, 0) with (vscale r (1, 0, 0)) by (cbn; f_equal; [f_equal|]; ring). rewrite mv_vscale. pose proof (sign_sq r NZ) as SS.
    destruct (mv m (1, 0, 0)) as [[x y] z]. cbn. f_equal; [f_equal|].
    - transitivity (sign r * sign r * r * x); [rewrite SS|]; ring.
    - transitivity (sign r * sign r * r * y); [rewrite SS|]; ring.
    - transitivity (sign r * sign r * r * z); [rewrite SS|]; ring. Qed.
  Lemma q_inj x : mv q x = (0, 0, 0) -> x = (0, 0, 0).
  Proof. intros H. rewrite <- (q_invol x), H. destruct q as [[[[m1 m2] m3] [[m4 m5] m6]] [[m7 m8] m9]]. cbn. f_equal; [f_equal|]; ring. Qed.
  Lemma q_dot x : exists c, 0 < c /\ dot a (mv q x) = c * dot (1, 0, 0) x.
  Proof. destruct q_dir as (c & Hc & E). exists c. split; auto. rewrite E at 1. rewrite dot_scale_l, q_sym, q_invol. auto. Qed.
End Q.

Section SphereFacts.
  Variable qr : vec -> mat * R.
  Hypothesis Q : qr_ok qr.
  Variable n : nat.

  Lemma edge_pos : (1 <= n)%nat -> 0 < 3 / sqrt (INR n).
  Proof. intros Hn. apply Rdiv_lt_0_compat; [lra|]. apply sqrt_lt_R0, lt_0_INR. lia. Qed.
  Lemma ones_nz : (1, 1, 1) <> (0, 0, 0).
  Proof. intros E. injection E. lra. Qed.
  (** every corner points away from the origin *)
  Lemma corner_outward p : (1 <= n)%nat -> In p (sphere_simplex n) -> 0 <= dot (1, 0, 0) (mv (signed_q qr (1, 1, 1)) p).
  Proof. intros Hn Hp. rewrite <- (q_sym qr Q (1, 1, 1) ones_nz).
    destruct (q_dir qr Q (1, 1, 1) ones_nz) as (c & Hc & E). set (u := mv _ (1, 0, 0)) in *. clearbody u. destruct u as [[x y] z]. cbn in E.
    assert (X : c * x = 1) by congruence. assert (Y : c * y = 1) by congruence. assert (Z : c * z = 1) by congruence.
    assert (x0 : 0 < x) by nra. assert (y0 : 0 < y) by nra. assert (z0 : 0 < z) by nra.
    pose proof (edge_pos Hn) as Ep. unfold sphere_simplex in Hp. set (e := 3 / sqrt (INR n)) in *. clearbody e.
    pose proof (Rmult_lt_0_compat _ _ x0 Ep). pose proof (Rmult_lt_0_compat _ _ y0 Ep). pose proof (Rmult_lt_0_compat _ _ z0 Ep).
    destruct Hp as [<- |[<- |[<- |[<- |[]]]]]; cbn; lra. Qed.

  Lemma sphere_vertices s : (1 <= n)%nat -> In s (get_sphere_stencil qr n) ->
    length s = 4%nat /\ Forall (fun p => 1.1 * 1.1 <= norm2_3 p) s /\ full_tetrahedron s.
  Proof. intros Hn Hs. unfold get_sphere_stencil in Hs. apply in_map_iff in Hs as (pos & <- & Hp).
    apply in_map_iff in Hp as (f & Ef & Hf). unfold fibonacci_sphere_points in Hf. apply in_map_iff in Hf as (i & <- & Hi). apply in_seq in Hi.
    assert (N : norm2_3 pos = 1.1 * 1.1).
    { rewrite <- Ef. pose proof (fibonacci_unit n i ltac:(lia)) as F. destruct (fibonacci_point n i) as [[x y] z]. cbn in *.
      transitivity (1.1 * 1.1 * (x * x + y * y + z * z)); [ring|]. rewrite F. ring. }
    assert (NZ : pos <> (0, 0, 0)) by (intros ->; cbn in N; lra). clear Ef Hi i.
    split; [reflexivity|]. split.
    - apply Forall_forall. intros p Hp. apply in_map_iff in Hp as (w & <- & Hw). apply in_map_iff in Hw as (c & <- & Hc).
      pose proof (corner_outward c Hn Hc) as O. set (w := mv (signed_q qr (1, 1, 1)) c) in *. clearbody w.
      destruct (q_dot qr Q pos NZ w) as (k & Hk & D). set (u := mv (signed_q qr pos) w) in *. clearbody u.
      assert (D0 : 0 <= dot pos u) by (rewrite D; apply Rmult_le_pos; lra). rewrite <- N.
      destruct u as [[x y] z], pos as [[x' y'] z']. cbn in *. nra.
    - unfold sphere_simplex. cbn [map full_tetrahedron]. pose proof (edge_pos Hn) as Ep. set (e := 3 / sqrt (INR n)) in *. clearbody e.
      intros a b c H. set (q1 := signed_q qr (1, 1, 1)) in *. set (q2 := signed_q qr pos) in *.
      assert (E : mv q2 (mv q1 (a * e + 0.25 * e * (b + c), b * e + 0.25 * e * (a + c), c * e + 0.25 * e * (a + b))) = (0, 0, 0)).
      { rewrite <- H. clear. destruct q1 as [[[[m1 m2] m3] [[m4 m5] m6]] [[m7 m8] m9]], q2 as [[[[n1 n2] n3] [[n4 n5] n6]] [[n7 n8] n9]], pos as [[x y] z].
        assert (K : 0.75 = 1 - 0.25) by lra. cbn. rewrite K. generalize 0.25. intros k. f_equal; [f_equal|]; ring. }
      apply (q_inj qr Q pos NZ) in E. apply (q_inj qr Q (1, 1, 1) ones_nz) in E. injection E as E1 E2 E3.
      assert (F1 : a + 0.25 * (b + c) = 0) by (apply (Rmult_eq_reg_r e); lra).
      assert (F2 : b + 0.25 * (a + c) = 0) by (apply (Rmult_eq_reg_r e); lra).
      assert (F3 : c + 0.25 * (a + b) = 0) by (apply (Rmult_eq_reg_r e); lra). lra. Qed.
  Lemma sphere_count : length (get_sphere_stencil qr n) = n.
  Proof. unfold get_sphere_stencil, fibonacci_sphere_points. rewrite !map_length, seq_length. auto. Qed.
End SphereFacts.

(** ** The Householder reflection satisfies the specification *)
Lemma lapack_qr_ok : qr_ok lapack_qr.
Proof. intros [[a0 a1] a2] NZ. unfold lapack_qr. destruct (Req_EM_T (a1 * a1 + a2 * a2) 0) as [E|E].
  - assert (a1 = 0) by nra. assert (a2 = 0) by nra. subst. repeat split.
    + intros [[x y] z] [[u v] w]. cbn. ring.
    + intros [[x y] z]. cbn. f_equal; [f_equal|]; ring.
    + cbn. f_equal; [f_equal|]; ring.
  - assert (P : 0 < a1 * a1 + a2 * a2) by nra. pose proof (sqrt_sqrt (a0 * a0 + a1 * a1 + a2 * a2) ltac:(nra)) as SS.
    assert (SP : 0 < sqrt (a0 * a0 + a1 * a1 + a2 * a2)) by (apply sqrt_lt_R0; nra).
    set (nrm := sqrt _) in *. set (beta := if Rle_dec 0 a0 then - nrm else nrm).
    assert (B : beta * beta = a0 * a0 + a1 * a1 + a2 * a2) by (unfold beta; destruct (Rle_dec 0 a0); nra).
    assert (B0 : beta <> 0) by (unfold beta; destruct (Rle_dec 0 a0); lra).
    assert (B1 : a0 - beta <> 0) by (unfold beta; destruct (Rle_dec 0 a0); lra).
    clearbody beta. clear SS SP nrm NZ E P.
    set (tau := (beta - a0) / beta). set (v1 := a1 / (a0 - beta)). set (v2 := a2 / (a0 - beta)).
    assert (T : tau * (1 + v1 * v1 + v2 * v2) = 2).
    { unfold tau, v1, v2. assert (X : (a0 - beta) * (a0 - beta) + a1 * a1 + a2 * a2 = 2 * (beta * (beta - a0))) by lra.
      transitivity ((beta - a0) / beta * (((a0 - beta) * (a0 - beta) + a1 * a1 + a2 * a2) / ((a0 - beta) * (a0 - beta)))); [field; auto|]. rewrite X. field. auto. }
    assert (T0 : (1 - tau) * beta = a0) by (unfold tau; field; auto).
    assert (T1 : - tau * v1 * beta = a1) by (unfold tau, v1; field; auto).
    assert (T2 : - tau * v2 * beta = a2) by (unfold tau, v2; field; auto).
    clearbody tau v1 v2. repeat split.
    + intros [[x y] z] [[u v] w]. cbn. ring.
    + intros [[x y] z]. cbn. assert (TT : tau * v2 * v2 * tau = 2 * tau - tau * tau - tau * v1 * v1 * tau).
      { replace (2 * tau) with (tau * (1 + v1 * v1 + v2 * v2) * tau) by (rewrite T; ring). ring. }
      f_equal; [f_equal|].
      * transitivity (x - (2 - tau * (1 + v1 * v1 + v2 * v2)) * tau * (x + v1 * y + v2 * z)); [ring|rewrite T; ring].
      * transitivity (y - (2 - tau * (1 + v1 * v1 + v2 * v2)) * tau * v1 * (x + v1 * y + v2 * z)); [ring|rewrite T; ring].
      * transitivity (z - (2 - tau * (1 + v1 * v1 + v2 * v2)) * tau * v2 * (x + v1 * y + v2 * z)); [ring|rewrite T; ring].
    + cbn. f_equal; [f_equal|]; lra. Qed.
