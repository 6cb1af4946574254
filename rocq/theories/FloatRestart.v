(** Facts about normalising a coordinate again and again, in double precision (for C75). *)
From Coq Require Import ZArith Reals Bool List.
From Flocq Require Import Core BinarySingleNaN Plus_error Sterbenz.
From Verif Require Import Base CoordSys Float FloatFacts FloatVector FloatMin FloatCell FloatVectorFacts SpecFloatCell FloatCellNum.
From Coq Require Import Lra Lia.
Open Scope R_scope.

Lemma nearest_sym y v M : ZnearestE y = M -> Rabs (v - IZR M) <= Rabs (y - IZR M) -> ZnearestE v = M.
Proof. intros E H. pose proof (Znearest_half (fun z => negb (Z.even z)) y) as Hh. rewrite E in Hh.
  destruct (Rlt_or_le (Rabs (v - IZR M)) (/ 2)) as [Hv|Hv]; [apply Znearest_imp; auto|].
  assert (Ev : Rabs (v - IZR M) = / 2) by lra. assert (Ey : Rabs (y - IZR M) = / 2) by lra.
  assert (Fl : forall z n, z = IZR n + / 2 -> Zfloor z = n) by (intros z n ->; apply Zfloor_imp; rewrite plus_IZR; lra).
  assert (Cl : forall z n, z = IZR n - / 2 -> Zceil z = n) by (intros z n ->; apply Zceil_imp; rewrite minus_IZR; lra).
  assert (V : v = IZR M + / 2 \/ v = IZR M - / 2) by (unfold Rabs in Ev; destruct (Rcase_abs _); lra).
  assert (Y : y = IZR M + / 2 \/ y = IZR M - / 2) by (unfold Rabs in Ey; destruct (Rcase_abs _); lra).
  assert (Up : forall z n, z = IZR n + / 2 -> ZnearestE z = if Z.even n then n else (n + 1)%Z).
  { intros z n Hz. unfold Znearest. rewrite (Fl z n Hz), Hz. replace (IZR n + / 2 - IZR n) with (/ 2) by ring. rewrite Rcompare_Eq by reflexivity. destruct (Z.even n); cbn; auto. apply Cl. rewrite plus_IZR. lra. }
  assert (Lo : forall z n, z = IZR n - / 2 -> ZnearestE z = if Z.even n then n else (n - 1)%Z).
  { intros z n Hz. rewrite (Up z (n - 1)%Z) by (rewrite minus_IZR; lra). rewrite Z.even_sub. cbn. destruct (Z.even n); cbn; lia. }
  destruct V as [V|V], Y as [Y|Y]; [rewrite V, <- Y; auto| | |rewrite V, <- Y; auto].
  - rewrite (Lo y M Y) in E. rewrite (Up v M V). destruct (Z.even M); lia.
  - rewrite (Up y M Y) in E. rewrite (Lo v M V). destruct (Z.even M); lia. Qed.

Lemma rnd_at t e : (-1074 <= e)%Z -> bpow radix2 (e + 52) <= t < bpow radix2 (e + 53) -> rnd t = IZR (ZnearestE (t * bpow radix2 (- e))) * bpow radix2 e.
Proof. intros He Ht. unfold rnd, round, scaled_mantissa, cexp, F2R. cbn [Fnum Fexp]. rewrite (mag_unique_pos radix2 t (e + 53)) by (replace (e + 53 - 1)%Z with (e + 52)%Z by lia; lra).
  replace (FE (e + 53)) with e; auto. rewrite FE_flt. unfold FLT_exp. lia. Qed.

Lemma nearest_small v n : Rabs (v - IZR n) < / 2 -> ZnearestE v = n.
Proof. apply Znearest_imp. Qed.
Lemma p53 : IZR (2 ^ 53) = pw 53.
Proof. rewrite <- IZR_Zpower by lia. reflexivity. Qed.
Lemma p52 : IZR (2 ^ 52) = pw 52.
Proof. rewrite <- IZR_Zpower by lia. reflexivity. Qed.

(** [u] is as near to the rounded [t] as [t] is: it is rounded to the same number, unless that
    is a power of two and [u] below it *)
Lemma closer t u e : (-1074 <= e)%Z -> pw (e + 52) <= t < pw (e + 53) -> Rabs (u - rnd t) <= Rabs (t - rnd t) ->
  rnd u = rnd t \/ rnd t = pw (e + 52) /\ u < pw (e + 52) /\ pw (e + 52) - pw (e - 1) <= u.
Proof. intros He Ht H. pose proof (rnd_at t e He Ht) as Es. set (y := t * pw (- e)) in *. set (M := ZnearestE y) in *.
  pose proof (pw_pos e) as Pe. pose proof (pw_pos (- e)) as Pe'. assert (Ee : pw e * pw (- e) = 1) by (rewrite pw_mul; replace (e + - e)%Z with 0%Z by lia; reflexivity).
  pose proof p52 as P52. pose proof p53 as P53. assert (E53 : pw 53 = 2 * pw 52) by (change 53%Z with (52 + 1)%Z; apply pow_succ).
  assert (F52 : pw (e + 52) = pw 52 * pw e) by (rewrite pw_mul; f_equal; lia). assert (F53 : pw (e + 53) = pw 53 * pw e) by (rewrite pw_mul; f_equal; lia).
  assert (F1 : pw e = 2 * pw (e - 1)) by (replace e with (e - 1 + 1)%Z at 1 by lia; apply pow_succ).
  assert (Ty : t = y * pw e) by (unfold y; rewrite Rmult_assoc, (Rmult_comm (pw (- e))), Ee; ring). set (v := u * pw (- e)).
  assert (Uv : u = v * pw e) by (unfold v; rewrite Rmult_assoc, (Rmult_comm (pw (- e))), Ee; ring).
  assert (Ry : pw 52 <= y < pw 53). { rewrite Ty, F52, F53 in Ht. destruct Ht as (H1 & H2). apply Rmult_le_reg_r in H1; auto. apply Rmult_lt_reg_r in H2; auto. }
  assert (Hh : Rabs (y - IZR M) <= / 2) by apply Znearest_half.
  assert (Hv : Rabs (v - IZR M) <= Rabs (y - IZR M)).
  { rewrite Es in H. rewrite Uv, Ty in H. rewrite <- !Rmult_minus_distr_r, !Rabs_mult in H. rewrite (Rabs_pos_eq (pw e)) in H by lra. apply Rmult_le_reg_r in H; auto. }
  rewrite abs_le in Hh.
  assert (Hv2 : - / 2 <= v - IZR M <= / 2) by (pose proof (Rle_trans _ _ _ Hv (proj2 (abs_le _ _) Hh)) as X; rewrite abs_le in X; exact X).
  assert (M1 : (2 ^ 52 <= M)%Z). { apply Z.lt_pred_le. apply lt_IZR. unfold Z.pred. rewrite plus_IZR, P52. lra. }
  assert (M2 : (M <= 2 ^ 53)%Z). { apply Z.lt_succ_r. apply lt_IZR. unfold Z.succ. rewrite plus_IZR, P53. lra. }
  destruct (Z.eq_dec M (2 ^ 52)) as [Em|Nm]; [|destruct (Z.eq_dec M (2 ^ 53)) as [Em|Nm2]].
  - rewrite Em, P52 in Es, Hh, Hv, Hv2. destruct (Rle_or_lt (pw 52) v) as [Hu|Hu].
    + left. apply Rle_antisym.
      * apply rnd_le. rewrite Ty, Uv. apply Rmult_le_compat_r; [lra|]. rewrite !Rabs_pos_eq in Hv by lra. lra.
      * rewrite Es at 1. rewrite <- (rnd_id (pw 52 * pw e)) by (rewrite <- F52; apply pow_format; lia). apply rnd_le. rewrite Uv. apply Rmult_le_compat_r; lra.
    + right. split; [rewrite Es; lra|]. rewrite F52, Uv. split; [apply Rmult_lt_compat_r; auto|]. assert (- / 2 * pw e <= (v - pw 52) * pw e) by (apply Rmult_le_compat_r; lra). lra.
  - left. rewrite Em, P53 in Es, Hh, Hv, Hv2. assert (Fs : dformat (pw 53 * pw e)) by (rewrite <- F53; apply pow_format; lia). destruct (Rle_or_lt v (pw 53)) as [Hu|Hu].
    + apply Rle_antisym.
      * rewrite Es at 1. rewrite <- (rnd_id (pw 53 * pw e)) by auto. apply rnd_le. rewrite Uv. apply Rmult_le_compat_r; lra.
      * apply rnd_le. rewrite Ty, Uv. apply Rmult_le_compat_r; [lra|]. rewrite !Rabs_left1 in Hv by lra. lra.
    + assert (Fe1 : pw (e + 1) = 2 * pw e) by apply pow_succ. assert (Fe2 : pw (- (e + 1)) = pw (- e) / 2). { assert (X : pw (- e) = 2 * pw (- (e + 1))) by (rewrite <- pow_succ; f_equal; lia). lra. }
      rewrite (rnd_at u (e + 1)); [|lia|].
      * rewrite (nearest_small _ (2 ^ 52)); [rewrite Es, P52, Fe1, E53; ring|]. replace (u * pw (- (e + 1))) with (v / 2) by (unfold v; rewrite Fe2; field). rewrite P52. apply Rabs_def1; lra.
      * replace (e + 1 + 52)%Z with (e + 53)%Z by lia. rewrite F53, Uv. replace (e + 1 + 53)%Z with (e + 53 + 1)%Z by lia. rewrite pow_succ, F53. assert (1 <= pw 53) by (change 1 with (pw 0); apply pw_le; lia). split; [apply Rmult_le_compat_r; lra|].
        rewrite <- Rmult_assoc. apply Rmult_lt_compat_r; auto. lra.
  - left. assert (B1 : pw 52 + 1 <= IZR M) by (rewrite <- P52, <- plus_IZR; apply IZR_le; lia). assert (B2 : IZR M <= pw 53 - 1) by (rewrite <- P53, <- minus_IZR; apply IZR_le; lia).
    rewrite (rnd_at u e He) by (rewrite F52, F53, Uv; split; [apply Rmult_le_compat_r; lra|apply Rmult_lt_compat_r; lra]). rewrite Es. fold v. f_equal. f_equal. apply nearest_sym with y; auto. Qed.

(** rounding a sum, taking the difference, and rounding the sum again *)
Lemma binade t : pw (-1021) < t -> exists e, (-1073 <= e)%Z /\ pw (e + 52) <= t < pw (e + 53).
Proof. intros H. pose proof (pw_pos (-1021)). destruct (mag radix2 t) as (k & Hk). specialize (Hk ltac:(lra)). rewrite Rabs_pos_eq in Hk by lra. exists (k - 53)%Z.
  replace (k - 53 + 52)%Z with (k - 1)%Z by lia. replace (k - 53 + 53)%Z with k by lia. split; auto. assert ((-1021 < k)%Z); [|lia]. apply (lt_bpow radix2). lra. Qed.
Lemma sum_small a b : dformat a -> dformat b -> Rabs (a + b) <= pw (-1021) -> dformat (a + b).
Proof. rewrite FE_flt. intros Fa Fb H. apply FLT_format_plus_small; auto; reflexivity. Qed.
Lemma step_pos a b : dformat a -> dformat b -> 0 <= a -> 0 < a + b ->
  let s := rnd (a + b) in let s' := rnd (rnd (s - b) + b) in s' = s \/ rnd (rnd (s' - b) + b) = s' /\ s' <= s /\ ~ dformat (a + b) /\ Rabs b < a.
Proof. intros Fa Fb Pa Pt s s'.
  assert (Near : forall c x, dformat c -> Rabs (rnd (x - b) + b - x) <= Rabs (c + b - x)).
  { intros c x Fc. pose proof (rnd_near (x - b) c Fc) as H. replace (rnd (x - b) + b - x) with (rnd (x - b) - (x - b)) by ring. replace (c + b - x) with (c - (x - b)) by ring. auto. }
  destruct (Rle_or_lt (a + b) (pw (-1021))) as [Hs|Hs].
  - left. assert (F : dformat (a + b)) by (apply sum_small; auto; rewrite Rabs_pos_eq by lra; auto). unfold s', s. rewrite (rnd_id (a + b)) by auto. replace (a + b - b) with a by ring. rewrite (rnd_id a) by auto. apply rnd_id; auto.
  - destruct (binade _ Hs) as (e & He & Be). set (t := a + b) in *. set (u := rnd (s - b) + b). pose proof (Near a s Fa) as Nu. fold t u in Nu.
    destruct (closer t u e ltac:(lia) Be Nu) as [E|(E1 & E2 & E3)]; [left; exact E|]. fold s in E1.
    change (s' = s \/ rnd (rnd (s' - b) + b) = s' /\ s' <= s /\ ~ dformat t /\ Rabs b < a). assert (Es' : s' = rnd u) by reflexivity. destruct (Req_dec s' s) as [|Ne]; [auto|]. right.
    pose proof (pw_pos (e - 1)) as Pe. assert (F1 : pw (e + 52) = 2 * pw (e + 51)) by (replace (e + 52)%Z with (e + 51 + 1)%Z by lia; apply pow_succ). assert (F2 : pw (e - 1) <= / 2 * pw (e + 51)). { change (/ 2) with (pw (-1)). rewrite pw_mul. apply pw_le. lia. }
    assert (Fp : dformat (pw (e + 52) - pw (e - 1))). { replace (pw (e + 52) - pw (e - 1)) with (IZR (2 ^ 53 - 1) * pw (e - 1)); [apply dyadic_format; lia|]. rewrite minus_IZR, p53, Rmult_minus_distr_r, pw_mul, Rmult_1_l. f_equal. f_equal. lia. }
    assert (L : pw (e + 52) - pw (e - 1) <= s') by (rewrite Es', <- (rnd_id _ Fp); apply rnd_le; auto). assert (U : s' <= s) by (rewrite Es', E1, <- (rnd_id (pw (e + 52))) by (apply pow_format; lia); apply rnd_le; lra).
    pose proof (pw_pos (e + 51)). split; [|split; [lra|]]; swap 1 2.
    { split.
      - intros F. apply Ne. unfold s', s. rewrite (rnd_id t) by auto. unfold t. replace (a + b - b) with a by ring. rewrite (rnd_id a) by auto. apply rnd_id; auto.
      - assert (b < s / 2).
        { apply Rnot_le_lt. intros Hb. destruct (Rle_or_lt b (2 * s)) as [Hb2|Hb2].
          - apply Ne. assert (F : dformat (s - b)) by (apply sterbenz; [apply _|apply _|apply rnd_format|auto|lra]). unfold s'. rewrite (rnd_id (s - b)) by auto. replace (s - b + b) with s by ring. apply rnd_id, rnd_format.
          - assert (Q : rnd b <= s) by (apply rnd_le; unfold t; lra). rewrite (rnd_id b) in Q by auto. lra. }
        unfold t in *. apply Rabs_def1; lra. }
    pose proof (Near (rnd (s - b)) s' (rnd_format _)) as Nw. fold u in Nw. rewrite Es' in Nw |- *.
    destruct (closer u (rnd (rnd u - b) + b) (e - 1) ltac:(lia) ltac:(replace (e - 1 + 52)%Z with (e + 51)%Z by lia; replace (e - 1 + 53)%Z with (e + 52)%Z by lia; lra) Nw) as [E|(G & _)]; [exact E|].
    replace (e - 1 + 52)%Z with (e + 51)%Z in G by lia. rewrite <- Es' in G. lra. Qed.
Lemma rnd_opp x : rnd (- x) = - rnd x.
Proof. apply round_NE_opp. Qed.
Lemma rnd_half_ulp t e : (-1074 <= e)%Z -> pw (e + 52) <= t < pw (e + 53) -> Rabs (t - rnd t) <= pw (e - 1).
Proof. intros He Ht. rewrite (rnd_at t e He Ht). set (y := t * pw (- e)). assert (Ee : pw e * pw (- e) = 1) by (rewrite pw_mul; replace (e + - e)%Z with 0%Z by lia; reflexivity). pose proof (pw_pos e) as Pe.
  assert (Ty : t = y * pw e) by (unfold y; rewrite Rmult_assoc, (Rmult_comm (pw (- e))), Ee; ring). rewrite Ty at 1. rewrite <- Rmult_minus_distr_r, Rabs_mult, (Rabs_pos_eq (pw e)) by lra.
  assert (F1 : pw e = 2 * pw (e - 1)) by (replace e with (e - 1 + 1)%Z at 1 by lia; apply pow_succ). apply Rle_trans with (/ 2 * pw e); [|lra]. apply Rmult_le_compat_r; [lra|apply Znearest_half]. Qed.
Lemma multiple x j : dformat x -> pw (j + 52) <= Rabs x -> exists n, x = IZR n * pw j.
Proof. intros Fx Hx. rewrite Fx. unfold F2R. cbn [Fnum Fexp]. set (c := cexp radix2 FE x). set (m := Ztrunc _). exists (m * 2 ^ (c - j))%Z.
  assert (Hc : (j <= c)%Z). { unfold c, cexp. rewrite FE_flt. unfold FLT_exp. assert ((j + 52 + 1 <= mag radix2 x)%Z); [|lia]. apply mag_ge_bpow. replace (j + 52 + 1 - 1)%Z with (j + 52)%Z by lia. auto. }
  rewrite mult_IZR, (IZR_Zpower radix2) by lia. rewrite Rmult_assoc, pw_mul. f_equal. f_equal. lia. Qed.
Lemma step_neg a b : dformat a -> dformat b -> 0 <= a -> a + b < 0 -> let s := rnd (a + b) in rnd (rnd (s - b) + b) = s.
Proof. intros Fa Fb Pa Pt s.
  assert (Ex : dformat (a + b) -> rnd (rnd (s - b) + b) = s) by (intros F; unfold s; rewrite (rnd_id (a + b)) by auto; replace (a + b - b) with a by ring; rewrite (rnd_id a) by auto; apply rnd_id; auto).
  destruct (Rle_or_lt (- (a + b)) (pw (-1021))) as [Hs|Hs]; [apply Ex, sum_small; auto; rewrite Rabs_left by lra; lra|].
  destruct (binade _ Hs) as (e & He & Be). set (t := a + b) in *. set (u := rnd (s - b) + b).
  assert (Nu : Rabs (- u - rnd (- t)) <= Rabs (- t - rnd (- t))).
  { rewrite rnd_opp. fold s. pose proof (rnd_near (s - b) a Fa) as H. replace (- u - - s) with (- (rnd (s - b) - (s - b))) by (unfold u; ring). replace (- t - - s) with (- (a - (s - b))) by (unfold t; ring). rewrite !Rabs_Ropp. auto. }
  destruct (closer (- t) (- u) e ltac:(lia) Be Nu) as [E|(E1 & E2 & E3)]; [rewrite !rnd_opp in E; fold s in E; lra|]. pose proof (rnd_half_ulp (- t) e ltac:(lia) Be) as Hu. rewrite rnd_opp in E1, Hu. fold s in E1, Hu. rewrite abs_le in Hu.
  assert (F53 : pw (e + 53) = 2 * pw (e + 52)) by (replace (e + 53)%Z with (e + 52 + 1)%Z by lia; apply pow_succ). destruct (Rle_or_lt (- b) (pw (e + 53))) as [Hb|Hb].
  - assert (Lb : b <= s) by (rewrite <- (rnd_id b Fb); apply rnd_le; unfold t; lra).
    assert (F : dformat (- b - - s)) by (apply sterbenz; [apply _|apply _|apply generic_format_opp; auto|apply generic_format_opp; apply rnd_format|lra]). replace (- b - - s) with (s - b) in F by ring.
    unfold u. rewrite (rnd_id (s - b)) by auto. replace (s - b + b) with s by ring. apply rnd_id, rnd_format.
  - apply Ex. assert (P1 : pw (e + 1) = 2 * pw e) by apply pow_succ. assert (P0 : pw e = 2 * pw (e - 1)) by (replace e with (e - 1 + 1)%Z at 1 by lia; apply pow_succ). pose proof (pw_pos (e - 1)) as Pp. pose proof (pw_pos (e + 52)) as Pq.
    destruct (multiple b (e + 1) Fb) as (n & En); [replace (e + 1 + 52)%Z with (e + 53)%Z by lia; rewrite Rabs_left by lra; lra|].
    assert (Hn : pw (e + 53) + pw (e + 1) <= - b).
    { assert (Q : pw (e + 53) = IZR (2 ^ 52) * pw (e + 1)) by (rewrite p52, pw_mul; f_equal; lia). rewrite En, Q in *. assert (X : (2 ^ 52 < - n)%Z). { apply lt_IZR. rewrite opp_IZR. apply Rmult_lt_reg_r with (pw (e + 1)); lra. }
      assert (Y : IZR (2 ^ 52 + 1) <= IZR (- n)) by (apply IZR_le; lia). rewrite plus_IZR, opp_IZR in Y. assert (Z : (IZR (2 ^ 52) + 1) * pw (e + 1) <= - IZR n * pw (e + 1)) by (apply Rmult_le_compat_r; lra). lra. }
    destruct (multiple a e Fa) as (k & Ek); [rewrite Rabs_pos_eq by lra; unfold t in *; lra|].
    assert (Et : t = IZR (k + 2 * n) * pw e) by (unfold t; rewrite Ek, En, P1, plus_IZR, mult_IZR; ring). rewrite Et. apply dyadic_format; [lia|].
    assert (Q : pw (e + 53) = IZR (2 ^ 53) * pw e) by (rewrite p53, pw_mul; f_equal; lia). rewrite Et, Q in Be. destruct Be as (B1 & B2). pose proof (pw_pos (e + 52)). pose proof (pw_pos e).
    assert ((k + 2 * n < 0)%Z) by (apply lt_IZR; apply Rmult_lt_reg_r with (pw e); lra). assert ((- (k + 2 * n) < 2 ^ 53)%Z) by (apply lt_IZR; rewrite opp_IZR; apply Rmult_lt_reg_r with (pw e); lra). lia. Qed.
Lemma step a b : dformat a -> dformat b -> 0 <= a ->
  let s := rnd (a + b) in let s' := rnd (rnd (s - b) + b) in s' = s \/ rnd (rnd (s' - b) + b) = s' /\ s' <= s /\ ~ dformat (a + b) /\ Rabs b < a.
Proof. intros Fa Fb Pa s s'. destruct (Rtotal_order (a + b) 0) as [H|[H|H]].
  - left. apply step_neg; auto.
  - left. unfold s', s. rewrite H, rnd_0. replace (0 - b) with (- b) by ring. rewrite rnd_opp, (rnd_id b) by auto. replace (- b + b) with 0 by ring. apply rnd_0.
  - destruct (step_pos a b Fa Fb Pa H) as [E|(E1 & E2)]; [left; exact E|right; split; [exact E1|exact E2]]. Qed.

(** ** Above the upper end *)
Lemma overshoot S L a : dformat S -> dformat L -> pw (-400) <= S -> a <= S -> let d := rnd (rnd (a + L) - L) in S < d -> Rabs L < d - S -> dformat (d - S + L).
Proof. intros FS FL HS Ha d Hd HL. set (y := rnd (a + L)) in *. set (T := S + L). set (z := rnd T).
  assert (P400 : pw (-1021) < pw (-400)) by (apply bpow_lt; lia). destruct (binade S ltac:(lra)) as (i & Hi & BS). pose proof (pw_pos i) as Pi. pose proof (pw_pos (-1021)) as P1021.
  assert (Q0 : pw i = 2 * pw (i - 1)) by (replace i with (i - 1 + 1)%Z at 1 by lia; apply pow_succ). assert (Q52 : pw (i + 52) = IZR (2 ^ 52) * pw i) by (rewrite p52, pw_mul; f_equal; lia). assert (Q53 : pw (i + 53) = IZR (2 ^ 53) * pw i) by (rewrite p53, pw_mul; f_equal; lia).
  assert (Q1 : pw (i - 1) = 2 * pw (i - 2)) by (replace (i - 1)%Z with (i - 2 + 1)%Z at 1 by lia; apply pow_succ). pose proof (pw_pos (i - 2)) as Pi2.
  destruct (multiple S i FS) as (nS & ES); [rewrite Rabs_pos_eq by lra; lra|]. destruct (multiple d i (rnd_format _)) as (nd & Ed); [rewrite Rabs_pos_eq by lra; lra|].
  assert (Hm : pw i <= d - S). { rewrite ES, Ed in *. assert ((nS < nd)%Z) by (apply lt_IZR, Rmult_lt_reg_r with (pw i); lra). assert (IZR (nS + 1) <= IZR nd) by (apply IZR_le; lia). rewrite plus_IZR in H0. assert ((IZR nS + 1) * pw i <= IZR nd * pw i) by (apply Rmult_le_compat_r; lra). lra. }
  assert (Hq : d - S <= 2 * (y - L - S)). { pose proof (rnd_near (y - L) S FS) as H. fold d in H. unfold Rabs in H. destruct (Rcase_abs _), (Rcase_abs _); lra. }
  assert (Hyz : y <= z) by (apply rnd_le; unfold T; lra). assert (Hz : d - S <= 2 * (z - T)) by (unfold T; lra).
  assert (BL : Rabs L <= S / 20).
  { pose proof (rnd_rel T) as R. fold z in R. assert (z - T <= Rabs (z - T)) by apply Rle_abs. assert (Rabs T <= S + Rabs L) by (unfold T; eapply Rle_trans; [apply Rabs_triang|]; rewrite (Rabs_pos_eq S) by lra; lra).
    assert (pw (-1075) <= pw (-10) * S). { apply Rle_trans with (pw (-10) * pw (-400)); [rewrite pw_mul; apply pw_le; lia|]. apply Rmult_le_compat_l; [left; apply pw_pos|lra]. }
    assert (E10 : pw (-10) = / 1024) by reflexivity. assert (pw (-53) <= / 1024) by (rewrite <- E10; apply pw_le; lia). pose proof (pw_pos (-53)). pose proof (Rabs_pos L). pose proof (Rabs_pos T).
    assert (pw (-53) * Rabs T <= / 1024 * (S + Rabs L)) by (apply Rmult_le_compat; lra). rewrite E10 in *. lra. }
  pose proof (proj1 (abs_le _ _) BL) as BL'. pose proof (Rabs_def2 _ _ HL) as HL'.
  destruct (Rlt_or_le T (pw (i + 52))) as [H1|H1]; [|destruct (Rlt_or_le T (pw (i + 53))) as [H2|H2]].
  - exfalso. assert (R : Rabs (T - rnd T) <= pw (i - 1 - 1)).
    { apply rnd_half_ulp; [lia|]. replace (i - 1 + 53)%Z with (i + 52)%Z by lia. split; auto. assert (pw (i + 52) = 2 * pw (i - 1 + 52)) by (rewrite <- pow_succ; f_equal; lia). unfold T. lra. }
    fold z in R. replace (i - 1 - 1)%Z with (i - 2)%Z in R by lia. rewrite abs_le in R. lra.
  - pose proof (rnd_half_ulp T i ltac:(lia) (conj H1 H2)) as R. fold z in R. rewrite abs_le in R. assert (Ez : z - T = pw (i - 1)) by lra. assert (Em : d - S = pw i) by lra.
    pose proof (rnd_at T i ltac:(lia) (conj H1 H2)) as Az. fold z in Az. set (nz := ZnearestE _) in Az. assert (EL : L = IZR (nz - nS) * pw i - pw (i - 1)) by (rewrite minus_IZR; unfold T in Ez; rewrite Az, ES in Ez; lra).
    assert (C : (nz - nS = 0 \/ nz - nS = 1)%Z).
    { assert ((-1 < nz - nS)%Z) by (apply lt_IZR, Rmult_lt_reg_r with (pw i); lra). assert ((nz - nS < 2)%Z) by (apply lt_IZR, Rmult_lt_reg_r with (pw i); lra). lia. }
    rewrite Em. destruct C as [C|C]; rewrite C in EL.
    + replace (pw i + L) with (pw (i - 1)) by lra. apply pow_format. lia.
    + replace (pw i + L) with (IZR 3 * pw (i - 1)) by lra. apply dyadic_format; lia.
  - exfalso. assert (Q54 : pw (i + 54) = 2 * pw (i + 53)) by (replace (i + 54)%Z with (i + 53 + 1)%Z by lia; apply pow_succ).
    assert (BT : pw (i + 1 + 52) <= T < pw (i + 1 + 53)) by (replace (i + 1 + 52)%Z with (i + 53)%Z by lia; replace (i + 1 + 53)%Z with (i + 54)%Z by lia; unfold T in *; lra).
    pose proof (rnd_half_ulp T (i + 1) ltac:(lia) BT) as R. fold z in R. replace (i + 1 - 1)%Z with i in R by lia. rewrite abs_le in R.
    assert (NS : nS = (2 ^ 53 - 1)%Z).
    { rewrite ES in BS. unfold T in *. rewrite ES in *. rewrite Q53 in *. assert ((nS < 2 ^ 53)%Z) by (apply lt_IZR, Rmult_lt_reg_r with (pw i); lra). assert ((2 ^ 53 - 2 < nS)%Z); [|lia]. apply lt_IZR, Rmult_lt_reg_r with (pw i); auto. rewrite minus_IZR. lra. }
    assert (TS : T < pw (i + 53) + pw i) by (unfold T; rewrite Q53, ES, NS, minus_IZR; lra).
    pose proof (rnd_at T (i + 1) ltac:(lia) BT) as Az. rewrite (nearest_small _ (2 ^ 52)) in Az.
    + fold z in Az. assert (pw (i + 1) = 2 * pw i) by apply pow_succ. rewrite H in Az. assert (IZR (2 ^ 52) * (2 * pw i) = pw (i + 53)). { rewrite <- H, p52, pw_mul. f_equal. lia. } lra.
    + assert (K : pw (i + 1) * pw (- (i + 1)) = 1) by (rewrite pw_mul; replace (i + 1 + - (i + 1))%Z with 0%Z by lia; reflexivity). pose proof (pw_pos (- (i + 1))) as Pk. assert (F1 : pw (i + 1) = 2 * pw i) by apply pow_succ.
      assert (X : pw i * pw (- (i + 1)) = / 2) by (rewrite F1 in K; lra). assert (Y : pw (i + 53) * pw (- (i + 1)) = IZR (2 ^ 52)) by (rewrite p52, pw_mul; f_equal; lia).
      assert (A1 : pw (i + 53) * pw (- (i + 1)) <= T * pw (- (i + 1))) by (apply Rmult_le_compat_r; lra). assert (A2 : T * pw (- (i + 1)) < (pw (i + 53) + pw i) * pw (- (i + 1))) by (apply Rmult_lt_compat_r; lra). rewrite Rmult_plus_distr_r in A2.
      apply Rabs_def1; lra. Qed.

(** ** One coordinate *)
Section Norm.
  Variable b : double * double.
  Hypothesis Gb : good_box b.
  Notation N := (fnormalize (fst b) (snd b)).
  Notation L := (val (fst b)).
  Notation Hi := (val (snd b)).
  Notation sz := (val (fsize (fst b) (snd b))).

  Lemma size_rnd : sz = rnd (Hi - L).
  Proof. destruct Gb as (Fl & Fh & Lt & Bl & Bh & _). assert (E : pw 401 = 2 * pw 400) by (change 401%Z with (400 + 1)%Z; apply pow_succ). unfold fsize. apply (fsub_val (snd b) (fst b) 401); auto; [lia|]. rewrite abs_le in *. lra. Qed.
  Lemma norm_val x : good_coord b x -> let d := rnd (val x - L) in let r := d - IZR (Ztrunc (d / sz)) * sz in let a := if Rlt_bool r 0 then rnd (r + sz) else r in
    dformat a /\ 0 <= a <= sz /\ fin (N x) /\ val (N x) = rnd (a + L) /\ Bsign (N x) = Rlt_bool (val (N x)) 0.
  Proof. intros (Fx & Bx) d r a. pose proof Gb as (Fl & _ & _ & Bl & _). destruct (size_ok b Gb) as (Fs & Ls & Us). pose proof (s_pos b Gb) as Ps. change (fbox_size b) with sz in Bx.
    assert (B : Rabs (val x - L) <= pw 411). { eapply Rle_trans; [exact Bx|]. change 411%Z with (10 + 401)%Z. rewrite <- pw_mul. apply Rmult_le_compat_l; [left; apply pw_pos|auto]. }
    destruct (fsub_val x (fst b) 411 ltac:(lia) Fx Fl B) as (Fd & Vd). fold d in Vd. destruct (np_mod_val (fsub x (fst b)) (fsize (fst b) (snd b)) Fd Fs Ps) as (Fm & Vm & Rm & _). rewrite Vd in Vm. fold r in Vm. fold a in Vm.
    set (m := np_mod (fsub x (fst b)) (fsize (fst b) (snd b))) in *. rewrite <- Vm. split; [apply val_format|]. split; [auto|].
    assert (P401 : pw 402 = 2 * pw 401) by (change 402%Z with (401 + 1)%Z; apply pow_succ). assert (P400 : pw 400 <= pw 401) by (apply pw_le; lia).
    assert (Bm : Rabs (val m + L) <= pw 402) by (eapply Rle_trans; [apply Rabs_triang|]; rewrite (Rabs_pos_eq (val m)) by lra; lra).
    destruct (fadd_val m (fst b) 402 ltac:(lia) Fm Fl Bm) as (Fr & Vr). change (fadd m (fst b)) with (N x) in *. split; [auto|]. split; [auto|].
    pose proof (Bplus_correct 53 1024 _ _ mode_NE m (fst b) Fm Fl) as C. rewrite (no_overflow _ 402) in C by (auto; lia). destruct C as (_ & _ & C). change (Bplus mode_NE m (fst b)) with (N x) in C. rewrite C, Vr.
    destruct (Rcompare_spec (val m + L) 0) as [Hc|Hc|Hc].
    - symmetry. apply Rlt_bool_true. destruct (Rle_or_lt (pw (-1021)) (- (val m + L))) as [Hb|Hb].
      + pose proof (pow_format (-1021) ltac:(lia)) as Fp. assert (X : pw (-1021) <= rnd (- (val m + L))) by (rewrite <- (rnd_id _ Fp) at 1; apply rnd_le; auto). rewrite rnd_opp in X. pose proof (pw_pos (-1021)). lra.
      + rewrite rnd_id by (apply sum_small; try apply val_format; rewrite Rabs_left by lra; lra). lra.
    - rewrite Hc, rnd_0, Rlt_bool_false by lra. cbn [andb]. assert (Sm : Bsign m = false); [|rewrite Sm; reflexivity].
      unfold m, np_mod. destruct (fmod_val (fsub x (fst b)) (fsize (fst b) (snd b)) Fd Fs ltac:(lra)) as (Ff & Vf). set (f := fmod _ _) in *.
      assert (Ss : Bsign (fsize (fst b) (snd b)) = false) by (destruct (fsize (fst b) (snd b)) as [s|s| |[|] mm ee Hb]; auto; [cbn in Ps; lra|discriminate Fs|]; exfalso; assert (X : val (B754_finite true mm ee Hb) < 0) by (apply F2R_lt_0; cbn; lia); lra).
      assert (G : fin (fadd f (fsize (fst b) (snd b))) -> 0 < val f + sz -> Bsign (fadd f (fsize (fst b) (snd b))) = false).
      { intros Fg Pg. pose proof (Bplus_correct 53 1024 _ _ mode_NE f _ Ff Fs) as D. destruct (Rlt_bool (Rabs (round _ _ _ _)) _) in D.
        - destruct D as (_ & _ & D). unfold fadd. rewrite D, Rcompare_Gt; auto.
        - destruct D as (D & _). unfold fin, fadd in Fg. destruct (Bplus mode_NE f _); try discriminate Fg; destruct (Bsign f); discriminate D. }
      destruct (fmod_range d sz Ps) as (R1 & R2). cbv zeta in R1, R2. rewrite Vd in Vf. fold r in R1, R2, Vf. unfold m, np_mod in Fm. fold f in Fm.
      destruct f as [s|s| |s mm ee Hb] eqn:Ef; [exact Ss|discriminate Ff|discriminate Ff|]. destruct (Bool.eqb _ _) eqn:Eb.
      + assert (Lx : flt (fsize (fst b) (snd b)) (B754_zero false) = false) by (unfold flt; rewrite Bltb_correct by auto; apply Rlt_bool_false; rewrite val_zero; lra). rewrite Lx in Eb.
        destruct s; [discriminate Eb|reflexivity].
      + apply G; [exact Fm|]. rewrite Vf. destruct (Rle_or_lt 0 d); [specialize (R1 ltac:(lra)); lra|specialize (R2 ltac:(lra)); lra].
    - symmetry. apply Rlt_bool_false. apply rnd_pos. lra. Qed.
  Lemma norm_inj x y : good_coord b x -> good_coord b y -> val (N x) = val (N y) -> N x = N y.
  Proof. intros Gx Gy E. destruct (norm_val x Gx) as (_ & _ & Fx & _ & Sx). destruct (norm_val y Gy) as (_ & _ & Fy & _ & Sy). apply B2R_Bsign_inj; auto. rewrite Sx, Sy, E. reflexivity. Qed.
  Lemma trunc_quot d : 0 <= d -> (d < sz -> Ztrunc (d / sz) = 0%Z) /\ (sz <= d < 2 * sz -> Ztrunc (d / sz) = 1%Z).
  Proof. intros Hd. pose proof (s_pos b Gb) as Ps. assert (X : d = d / sz * sz) by (field; lra). assert (0 <= d / sz) by (apply Rmult_le_reg_r with sz; lra).
    rewrite Ztrunc_floor by auto. set (q := d / sz) in *. clearbody q. split; intros Q; apply Zfloor_imp; split; try lra.
    - apply Rmult_lt_reg_r with sz; auto. change (0 + 1)%Z with 1%Z. rewrite <- X. lra.
    - apply Rmult_le_reg_r with sz; auto. rewrite <- X. lra.
    - change (IZR (1 + 1)) with 2. apply Rmult_lt_reg_r with sz; auto. rewrite <- X. lra. Qed.
  Lemma norm_next y : good_coord b y -> let d := rnd (val y - L) in 0 <= d -> (d < sz -> val (N y) = rnd (d + L)) /\ (sz <= d < 2 * sz -> val (N y) = rnd (d - sz + L)).
  Proof. intros Gy d Hd. destruct (norm_val y Gy) as (_ & _ & _ & V & _). fold d in V. destruct (trunc_quot d Hd) as (T1 & T2). split; intros Q; rewrite V.
    - rewrite (T1 Q). rewrite Rlt_bool_false by lra. f_equal. ring.
    - rewrite (T2 Q). rewrite Rlt_bool_false by lra. f_equal. ring. Qed.
  Lemma wide : ~ dformat (Hi - L) -> Rabs L <= 4 * sz.
  Proof. intros NF. pose proof (s_pos b Gb) as Ps. destruct Gb as (_ & _ & Lt & _). pose proof (rnd_half_le (Hi - L)) as Q. rewrite <- size_rnd in Q. specialize (Q Ps). rewrite abs_le in Q.
    assert (A1 : ~ (L / 2 <= Hi <= 2 * L)) by (intros X; apply NF, sterbenz; try apply val_format; try apply _; auto).
    assert (A2 : ~ (- Hi / 2 <= - L <= 2 * - Hi)). { intros X. apply NF. replace (Hi - L) with (- L - - Hi) by ring. apply sterbenz; try apply _; try (apply generic_format_opp; apply val_format); lra. }
    apply abs_le. destruct (Rle_or_lt L 0); [destruct (Rle_or_lt 0 Hi); [lra|]|].
    - assert (~ - L <= 2 * - Hi) by (intros X; apply A2; lra). lra.
    - assert (~ Hi <= 2 * L) by (intros X; apply A1; lra). lra. Qed.
  Lemma round_trip a : 0 <= a <= sz -> Rabs L <= 4 * sz -> Rabs (rnd (rnd (a + L) - L) - a) <= sz / 50.
  Proof. intros Ha HL. pose proof (s_pos b Gb) as Ps. pose proof (tiny b Gb) as T. assert (E10 : pw (-10) = / 1024) by reflexivity. assert (P53 : pw (-53) <= / 1024) by (rewrite <- E10; apply pw_le; lia). assert (P60 : pw (-60) <= / 1024) by (rewrite <- E10; apply pw_le; lia).
    pose proof (pw_pos (-53)) as Q53. assert (T' : pw (-1075) <= / 1024 * sz) by (eapply Rle_trans; [exact T|]; apply Rmult_le_compat_r; lra).
    assert (G : forall t, Rabs t <= 6 * sz -> Rabs (rnd t - t) <= sz / 100).
    { intros t Ht. eapply Rle_trans; [apply rnd_rel|]. assert (pw (-53) * Rabs t <= / 1024 * (6 * sz)) by (apply Rmult_le_compat; try lra; apply Rabs_pos). lra. }
    pose proof (proj1 (abs_le _ _) HL) as HL'. assert (B1 : Rabs (a + L) <= 6 * sz) by (apply abs_le; lra). pose proof (G _ B1) as G1. rewrite abs_le in G1.
    assert (B2 : Rabs (rnd (a + L) - L) <= 6 * sz) by (apply abs_le; lra). pose proof (G _ B2) as G2. rewrite abs_le in G2. apply abs_le. lra. Qed.
  (** the second time nothing changes *)
  Lemma norm_twice x : good_coord b x -> good_coord b (N x) -> good_coord b (N (N x)) -> N (N (N x)) = N (N x).
  Proof. intros Gx Gy Gz. pose proof (s_pos b Gb) as Ps. destruct (size_ok b Gb) as (_ & Ls & _). pose proof (val_format (fst b)) as FL. pose proof (val_format (fsize (fst b) (snd b))) as FS.
    apply norm_inj; auto. destruct (norm_val x Gx) as (Fa & Ra & _ & V1 & _). set (a := if Rlt_bool _ _ then _ else _) in *. clearbody a. set (y1 := N x) in *. set (y2 := N y1) in *.
    assert (L1 : L <= val y1) by (rewrite V1, <- (rnd_id L FL) at 1; apply rnd_le; lra). set (d1 := rnd (val y1 - L)). assert (P1 : 0 <= d1) by (apply rnd_pos; lra). destruct (norm_next y1 Gy P1) as (N1 & N2). fold d1 y2 in N1, N2.
    assert (Cong : val y2 = val y1 -> val (N y2) = val y2).
    { intros E. destruct (norm_val y2 Gz) as (_ & _ & _ & W & _). destruct (norm_val y1 Gy) as (_ & _ & _ & W1 & _). fold y2 in W1. rewrite E in W. rewrite W, W1. reflexivity. }
    destruct (Rlt_or_le d1 sz) as [C|C].
    - specialize (N1 C). destruct (step a L Fa FL ltac:(lra)) as [E|(E1 & E2 & _)]; [rewrite <- V1 in E; fold d1 in E; rewrite <- N1 in E; apply Cong; exact E|]. rewrite <- V1 in E1, E2; fold d1 in E1, E2; rewrite <- N1 in E1, E2.
      set (d2 := rnd (val y2 - L)) in *. assert (L2 : L <= val y2) by (rewrite N1, <- (rnd_id L FL) at 1; apply rnd_le; lra). assert (P2 : 0 <= d2) by (apply rnd_pos; lra). destruct (norm_next y2 Gz P2) as (M1 & _). fold d2 in M1.
      rewrite M1; auto. apply Rle_lt_trans with d1; auto. apply rnd_le. lra.
    - destruct (Req_dec d1 sz) as [E|Ne].
      + assert (V2 : val y2 = L) by (rewrite N2 by lra; rewrite E; replace (sz - sz + L) with L by ring; apply rnd_id; auto).
        assert (D2 : rnd (val y2 - L) = 0) by (rewrite V2; replace (L - L) with 0 by ring; apply rnd_0). destruct (norm_next y2 Gz ltac:(rewrite D2; lra)) as (M1 & _). rewrite D2 in M1. rewrite M1 by lra. rewrite V2. replace (0 + L) with L by ring. apply rnd_id; auto.
      + assert (NF : ~ dformat (Hi - L)).
        { intros F. apply Ne. apply Rle_antisym; auto. rewrite size_rnd, (rnd_id _ F) in *. assert (U : val y1 <= Hi). { rewrite V1, <- (rnd_id Hi) by apply val_format. apply rnd_le. lra. } unfold d1. rewrite <- (rnd_id _ F). apply rnd_le. lra. }
        pose proof (wide NF) as W. pose proof (round_trip a Ra W) as T1. rewrite <- V1 in T1. fold d1 in T1. rewrite abs_le in T1. specialize (N2 ltac:(lra)). set (m := d1 - sz) in *.
        assert (Rm : 0 <= m <= sz) by (unfold m; lra). pose proof (round_trip m Rm W) as T2. rewrite <- N2 in T2. set (d2 := rnd (val y2 - L)) in *. rewrite abs_le in T2. unfold m in T2.
        assert (L2 : L <= val y2) by (rewrite N2, <- (rnd_id L FL) at 1; apply rnd_le; lra). assert (P2 : 0 <= d2) by (apply rnd_pos; lra). destruct (norm_next y2 Gz P2) as (M1 & _). fold d2 in M1. rewrite M1 by lra.
        assert (Fm : dformat m). { unfold m. apply sterbenz; try apply _; auto; [apply rnd_format|lra]. }
        destruct (step m L Fm FL ltac:(lra)) as [E|(_ & _ & E3 & E4)]; [rewrite <- N2 in E; exact E|]. exfalso. apply E3. unfold m, d1. rewrite V1. apply overshoot; auto; [lra| |]; rewrite <- V1; fold d1; [lra|exact E4]. Qed.
End Norm.
