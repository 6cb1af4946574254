(** The mean volumes of C71. *)
From Coq Require Import Reals Psatz.
From Coquelicot Require Import Coquelicot.
From Verif Require Import Base BaseFacts CoordSys SpecGeom CoordSysR Dimension SpecVolume.
From Coq Require Import Lra.
Open Scope list_scope.
Open Scope R_scope.

(** integral from an antiderivative *)
Lemma int_of (F f : R -> R) a b v : (forall x, is_derive F x (f x)) -> (forall x, continuous f x) -> v = F b - F a -> is_RInt f a b v.
Proof. intros D C ->. apply (is_RInt_derive F f); auto. Qed.
Lemma int_ext (f g : R -> R) a b v : a <= b -> (forall x, a < x < b -> f x = g x) -> is_RInt f a b v -> is_RInt g a b v.
Proof. intros L E. apply is_RInt_ext. intros x. rewrite Rmin_left, Rmax_right by auto. apply E. Qed.
Lemma int_split (f : R -> R) a b c u v w : is_RInt f a b u -> is_RInt f b c v -> w = u + v -> is_RInt f a c w.
Proof. intros A B ->. apply (is_RInt_Chasles f a b c); auto. Qed.
Lemma int_const a b (c : R) v : v = (b - a) * c -> is_RInt (fun _ => c) a b v.
Proof. intros ->. apply (is_RInt_const a b c). Qed.
Lemma int_scal (f : R -> R) k a b u v : is_RInt f a b u -> v = k * u -> is_RInt (fun x => k * f x) a b v.
Proof. intros H ->. apply (is_RInt_scal f a b k u H). Qed.

Ltac dcont := intros; apply (ex_derive_continuous (V := R_NormedModule)); auto_derive; auto.
Lemma int_abs a : 0 <= a -> is_RInt (fun x => Rabs x) (- a) a (a ^ 2).
Proof. intros A. apply (int_split _ (- a) 0 a (a ^ 2 / 2) (a ^ 2 / 2)); [| |lra].
  - apply (int_ext (fun x => - x)); [lra|intros; rewrite Rabs_left; lra|]. apply (int_of (fun x => - (x ^ 2) / 2)); [intros; auto_derive; auto; lra| |lra]. dcont.
  - apply (int_ext (fun x => x)); [lra|intros; rewrite Rabs_right; lra|]. apply (int_of (fun x => x ^ 2 / 2)); [intros; auto_derive; auto; lra| |lra]. dcont. Qed.
Lemma int_abs_sin : is_RInt (fun x => Rabs (sin x)) 0 (2 * PI) 4.
Proof. pose proof PI_RGT_0. apply (int_split _ 0 PI (2 * PI) 2 2); [| |lra].
  - apply (int_ext sin); [lra|intros x Hx; rewrite Rabs_right; auto; apply Rle_ge, sin_ge_0; lra|]. apply (int_of (fun x => - cos x)); [intros; auto_derive; auto; lra|dcont|rewrite cos_PI, cos_0; lra].
  - apply (int_ext (fun x => - sin x)); [lra|intros x Hx; rewrite Rabs_left1; auto; apply sin_le_0; lra|]. apply (int_of cos); [intros; auto_derive; auto; lra|dcont|rewrite cos_2PI, cos_PI; lra]. Qed.
Lemma int_sin : is_RInt sin 0 PI 2.
Proof. apply (int_of (fun x => - cos x)); [intros; auto_derive; auto; lra|dcont|rewrite cos_PI, cos_0; lra]. Qed.
Lemma int_sin2 : is_RInt (fun x => sin x * sin x) 0 PI (PI / 2).
Proof. apply (int_of (fun x => (x - sin x * cos x) / 2)); [intros; auto_derive; auto; pose proof (sin2_cos2 x) as E; unfold Rsqr in E; lra|dcont|].
  rewrite sin_PI, sin_0. lra. Qed.
Lemma int_cos_sin : is_RInt (fun x => Rabs (cos x) * sin x) 0 PI 1.
Proof. pose proof PI_RGT_0. apply (int_split _ 0 (PI / 2) PI (1 / 2) (1 / 2)); [| |lra].
  - apply (int_ext (fun x => cos x * sin x)); [lra|intros x Hx; rewrite Rabs_right; auto; apply Rle_ge, cos_ge_0; lra|]. apply (int_of (fun x => - (cos x ^ 2) / 2)); [intros; auto_derive; auto; lra|dcont|].
    rewrite cos_PI2, cos_0. lra.
  - apply (int_ext (fun x => - (cos x * sin x))); [lra|intros x Hx; rewrite Rabs_left1; [ring|]; apply cos_le_0; lra|]. apply (int_of (fun x => cos x ^ 2 / 2)); [intros; auto_derive; auto; lra|dcont|].
    rewrite cos_PI2, cos_PI. lra. Qed.
Lemma int_pow n a : is_RInt (fun r => r ^ n) 0 a (a ^ S n / INR (S n)).
Proof. assert (P : INR (S n) <> 0) by (apply not_0_INR; lia). apply (int_of (fun r => r ^ S n / INR (S n))).
  - intros x. auto_derive; auto. change (match n with 0%nat => 1 | S _ => INR n + 1 end) with (INR (S n)). cbn [pred]. field. auto.
  - intros x. apply (ex_derive_continuous (fun r => r ^ n)). auto_derive. auto.
  - rewrite (pow_i (S n)) by lia. field. auto. Qed.

Section Mean.
  Variable a : R.
  Hypothesis A : 0 < a.
  Lemma interval_mean : mean_interval (fun x => Rabs x) a (a / 2).
  Proof. unfold mean_interval. replace (2 * a * (a / 2)) with (a ^ 2) by field. apply int_abs. lra. Qed.
  Lemma disk_radius : mean_disk (fun x y => sqrt (x ^ 2 + y ^ 2)) a (2 * a / 3).
  Proof. exists (fun r => 2 * PI * r ^ 2). pose proof PI_RGT_0. split.
    - intros r Hr. apply (int_ext (fun _ => r ^ 2)); [lra| |apply int_const; ring]. intros x _. replace ((r * cos x) ^ 2 + (r * sin x) ^ 2) with (r * r) by (pose proof (sin2_cos2 x) as E; unfold Rsqr in E; replace ((r * cos x) ^ 2 + (r * sin x) ^ 2) with (r * r * (sin x * sin x + cos x * cos x)) by ring; rewrite E; ring).
      rewrite sqrt_square by auto. ring.
    - eapply int_scal; [apply (int_pow 2)|]. cbn [INR]. field. Qed.
  Lemma disk_height : mean_disk (fun x y => Rabs y) a (4 * a / (3 * PI)).
  Proof. exists (fun r => 4 * r ^ 2). pose proof PI_RGT_0. split.
    - intros r Hr. apply (int_ext (fun x => r ^ 2 * Rabs (sin x))); [lra| |eapply int_scal; [apply int_abs_sin|ring]]. intros x _. rewrite Rabs_mult, (Rabs_right r) by lra. ring.
    - eapply int_scal; [apply (int_pow 2)|]. cbn [INR]. field. lra. Qed.
  Lemma radius3 r t x : 0 <= r -> sqrt ((r * sin t * cos x) ^ 2 + (r * sin t * sin x) ^ 2 + (r * cos t) ^ 2) = r.
  Proof. intros Hr. pose proof (sin2_cos2 x) as E. pose proof (sin2_cos2 t) as E2. unfold Rsqr in *.
    replace (_ + _) with (r * r * (sin t * sin t * (sin x * sin x + cos x * cos x) + cos t * cos t)) by ring. rewrite E, Rmult_1_r, E2, Rmult_1_r. apply sqrt_square. auto. Qed.
  Lemma radius2 r t x : 0 <= r -> 0 <= t <= PI -> sqrt ((r * sin t * cos x) ^ 2 + (r * sin t * sin x) ^ 2) = r * sin t.
  Proof. intros Hr Ht. pose proof (sin2_cos2 x) as E. unfold Rsqr in *. pose proof (sin_ge_0 t ltac:(lra) ltac:(lra)).
    replace (_ + _) with (r * sin t * (r * sin t) * (sin x * sin x + cos x * cos x)) by ring. rewrite E, Rmult_1_r. apply sqrt_square. nra. Qed.
  Lemma ball_radius : mean_ball (fun x y z => sqrt (x ^ 2 + y ^ 2 + z ^ 2)) a (3 * a / 4).
  Proof. exists (fun r => 4 * PI * r ^ 3), (fun r t => 2 * PI * r ^ 3 * sin t). pose proof PI_RGT_0. split; [|split].
    - intros r t Hr Ht. apply (int_ext (fun _ => r ^ 3 * sin t)); [lra| |apply int_const; ring]. intros x _. rewrite radius3 by auto. ring.
    - intros r Hr. eapply int_scal; [apply int_sin|]. ring.
    - eapply int_scal; [apply (int_pow 3)|]. cbn [INR]. field. Qed.
  Lemma ball_line : mean_ball (fun x y z => sqrt (x ^ 2 + y ^ 2)) a (3 * PI * a / 16).
  Proof. exists (fun r => PI ^ 2 * r ^ 3), (fun r t => 2 * PI * r ^ 3 * (sin t * sin t)). pose proof PI_RGT_0. split; [|split].
    - intros r t Hr Ht. apply (int_ext (fun _ => r ^ 3 * (sin t * sin t))); [lra| |apply int_const; ring]. intros x _. rewrite radius2 by auto. ring.
    - intros r Hr. eapply int_scal; [apply int_sin2|]. field.
    - eapply int_scal; [apply (int_pow 3)|]. cbn [INR]. field. Qed.
  Lemma ball_plane : mean_ball (fun x y z => Rabs z) a (3 * a / 8).
  Proof. exists (fun r => 2 * PI * r ^ 3), (fun r t => 2 * PI * r ^ 3 * (Rabs (cos t) * sin t)). pose proof PI_RGT_0. split; [|split].
    - intros r t Hr Ht. apply (int_ext (fun _ => r ^ 3 * (Rabs (cos t) * sin t))); [lra| |apply int_const; ring]. intros x _. rewrite Rabs_mult, (Rabs_right r) by lra. ring.
    - intros r Hr. eapply int_scal; [apply int_cos_sin|]. ring.
    - eapply int_scal; [apply (int_pow 3)|]. cbn [INR]. field. Qed.
  Lemma mean_volume_exact k e : exact_value k = Some e -> mean_volume k a (a ^ k * e).
  Proof. pose proof PI_RGT_0. destruct k as [|[|[|[|]]]]; cbn [exact_value]; try discriminate; intros [= <-]; unfold mean_volume.
    - replace (a ^ 1 * (1 / 2)) with (a / 2) by field. apply interval_mean.
    - exists (2 * a / 3), (4 * a / (3 * PI)). split; [apply disk_radius|]. split; [apply disk_height|]. field. lra.
    - exists (3 * a / 4), (3 * PI * a / 16), (3 * a / 8). split; [apply ball_radius|]. split; [apply ball_line|]. split; [apply ball_plane|]. field. Qed.

  (** uniqueness *)
  Lemma int_unique (f : R -> R) u v w x : is_RInt f u v w -> is_RInt f u v x -> w = x.
  Proof. intros H1 H2. rewrite <- (is_RInt_unique _ _ _ _ H1). apply is_RInt_unique, H2. Qed.
  Lemma disk_unique f m m' : mean_disk f a m -> mean_disk f a m' -> m = m'.
  Proof. intros (g & G1 & G2) (g' & G1' & G2'). pose proof PI_RGT_0. assert (E : PI * a ^ 2 * m = PI * a ^ 2 * m'); [|apply Rmult_eq_reg_l with (PI * a ^ 2); auto; assert (0 < a ^ 2) by nra; nra].
    eapply int_unique; [exact G2|]. apply (int_ext g'); [lra| |exact G2']. intros r Hr. eapply int_unique; [apply G1'|apply G1]; lra. Qed.
  Lemma ball_unique f m m' : mean_ball f a m -> mean_ball f a m' -> m = m'.
  Proof. intros (g & h & H1 & G1 & G2) (g' & h' & H1' & G1' & G2'). pose proof PI_RGT_0. assert (P3 : 0 < a ^ 3) by (apply pow_lt; auto). assert (E : 4 / 3 * PI * a ^ 3 * m = 4 / 3 * PI * a ^ 3 * m'); [|apply Rmult_eq_reg_l with (4 / 3 * PI * a ^ 3); auto; nra].
    eapply int_unique; [exact G2|]. apply (int_ext g'); [lra| |exact G2']. intros r Hr. eapply int_unique; [apply G1'; lra|]. apply (int_ext (h r)); [lra| |apply G1; lra]. intros t Ht. eapply int_unique; [apply H1|apply H1']; lra. Qed.
  Lemma mean_volume_unique k v v' : mean_volume k a v -> mean_volume k a v' -> v = v'.
  Proof. destruct k as [|[|[|[|]]]]; cbn [mean_volume]; try tauto.
    - intros H1 H2. pose proof (int_unique _ _ _ _ _ H1 H2). apply Rmult_eq_reg_l with (2 * a); lra.
    - intros (m & n & A1 & A2 & ->) (m' & n' & B1 & B2 & ->). rewrite (disk_unique _ _ _ A1 B1), (disk_unique _ _ _ A2 B2). auto.
    - intros (m & n & q & A1 & A2 & A3 & ->) (m' & n' & q' & B1 & B2 & B3 & ->). rewrite (ball_unique _ _ _ A1 B1), (ball_unique _ _ _ A2 B2), (ball_unique _ _ _ A3 B3). auto. Qed.
End Mean.
