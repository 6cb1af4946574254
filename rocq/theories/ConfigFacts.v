(** Proofs about the construction of a search. *)
From Coq Require Import String.
From Verif Require Import Base BaseFacts CoordSys SpecGeom CoordSysFacts CellList Values Container SpecContainer Queue QueueFacts SpecQueue
  Mesh SpecMesh MeshFacts Hdf5 NelderMead SpecMin Controller SpecSearch SearchStart Config.
Open Scope list_scope.
Open Scope Qc_scope.

Lemma cutoff_third fs : qc 3 * dist_cutoff fs = fs.
Proof. unfold dist_cutoff. field. intros X. apply (f_equal this) in X. discriminate. Qed.
Lemma cutoff_pos fs : 0 < fs -> 0 < dist_cutoff fs.
Proof. intros H. pose proof (cutoff_third fs) as E. rewrite <- E in H. replace (qc 3) with (1 + 1 + 1) in H by (apply Qc_is_canon; reflexivity). qnra. Qed.

Lemma sort2_cases l : (fst l <= snd l /\ sort2 l = l) \/ (snd l < fst l /\ sort2 l = (snd l, fst l)).
Proof. unfold sort2. destruct (ltb (snd l) (fst l)) eqn:E; [right|left]; split; auto. - apply ltb_spec; auto. - apply ltb_false in E. auto. Qed.

Lemma sorted_wf lims per : Forall (fun l => fst l <> snd l) lims -> wf_box (coordinate_system lims per).
Proof. intros F. unfold wf_box, coordinate_system. cbn. apply Forall_forall. intros l Hl. apply in_map_iff in Hl as (m & <- & Hm).
  rewrite Forall_forall in F. specialize (F m Hm). destruct (sort2_cases m) as [[H ->]|[H ->]]; cbn; auto.
  destruct (Qcle_lt_or_eq _ _ H); auto. contradiction. Qed.

(** Scaling by a non-zero factor keeps simplices apart. *)
Lemma scale_back c s : c <> 0 -> map (map (fun x => x / c)) (map (map (fun x => x * c)) s) = s.
Proof. intros N. rewrite map_map. rewrite <- (map_id s) at 2. apply map_ext. intros p. rewrite map_map. rewrite <- (map_id p) at 2. apply map_ext. intros x. field. auto. Qed.

Lemma scale_perm c s t : c <> 0 -> Permutation (map (map (fun x => x * c)) s) (map (map (fun x => x * c)) t) -> Permutation s t.
Proof. intros N P. rewrite <- (scale_back c s N), <- (scale_back c t N). apply Permutation_map. auto. Qed.

Lemma scale_nodup c st : c <> 0 -> NoDup (map norm_simplex st) -> NoDup (map norm_simplex (scale_stencil c st)).
Proof. intros N ND. unfold scale_stencil. rewrite map_map.
  induction st as [|s st IH]; cbn in *; [constructor|]. inversion ND as [|? ? H1 H2]; subst. constructor; auto.
  intros X. apply in_map_iff in X as (t & E & Ht). apply H1. apply norm_simplex_spec in E. apply scale_perm in E; auto.
  apply in_map_iff. exists t. split; auto. apply norm_simplex_spec. auto. Qed.

Lemma scale_lengths c n st : Forall (Forall (fun p => length p = n)) st -> Forall (Forall (fun p => length p = n)) (scale_stencil c st).
Proof. unfold scale_stencil. rewrite !Forall_forall. intros H s Hs. apply in_map_iff in Hs as (t & <- & Ht). specialize (H t Ht).
  rewrite !Forall_forall in *. intros p Hp. apply in_map_iff in Hp as (q & <- & Hq). rewrite map_length. auto. Qed.

Lemma scale_simplices c n st : Forall (is_simplex n) st -> Forall (is_simplex n) (scale_stencil c st).
Proof. unfold scale_stencil. rewrite !Forall_forall. intros H s Hs. apply in_map_iff in Hs as (t & <- & Ht). destruct (H t Ht) as (A & B & C).
  split; auto. split; [rewrite map_length; auto|]. rewrite !Forall_forall in *. intros p Hp. apply in_map_iff in Hp as (q & <- & Hq). rewrite map_length. auto. Qed.

(** no two positions of the list have the same vertices *)
Lemma perm_nodup (ss : list (list point)) :
  (forall i j, (i < length ss)%nat -> (j < length ss)%nat -> Permutation (nth i ss []) (nth j ss []) -> i = j) -> NoDup (map norm_simplex ss).
Proof. intros H. apply (proj2 (NoDup_nth (map norm_simplex ss) (norm_simplex []))). intros i j. rewrite !map_length, !map_nth. intros Hi Hj E.
  apply H; auto. apply norm_simplex_spec. auto. Qed.

(** Coordinates of the automatic mesh stencil. *)
Lemma displaced_coord : forall v ds p x, length v = length ds -> In p (displaced v ds) -> In x p ->
  In x v \/ exists a d, In a v /\ In d ds /\ x = a + d.
Proof. induction v as [|a v IH]; intros [|d ds] p x L Hp Hx; cbn in *; try tauto; try lia.
  destruct Hp as [<- |Hp]; [destruct Hx as [<- |Hx]; [right; exists a, d; auto|auto]|].
  apply in_map_iff in Hp as (q & <- & Hq). destruct Hx as [<- |Hx]; [auto|].
  destruct (IH ds q x ltac:(lia) Hq Hx) as [H|(b & e & H1 & H2 & H3)]; [auto|]. right. exists b, e. auto. Qed.

Lemma auto_mesh_bound n ss : get_auto_mesh_stencil n = Ok ss ->
  forall s p x, In s ss -> In p s -> In x p -> qabs x <= Q2Qc (10 # 3).
Proof. unfold get_auto_mesh_stencil, get_mesh_stencil, generate_mesh_simplices. rewrite !repeat_length, Nat.eqb_refl. cbn [negb].
  fold q52. fold (stencil_limits n). intros E. injection E as <-. pose proof (stencil_args n) as A. pose proof A as (L & W & M).
  assert (LL : length (stencil_limits n) = n) by (unfold stencil_limits; apply repeat_length).
  pose proof (distances_length (stencil_limits n) (repeat 3%nat n) L) as LD. rewrite LL in LD.
  assert (Dn : forall d, In d (simplex_distances (stencil_limits n) (repeat 3%nat n)) -> d = Q2Qc (5 # 6)).
  { intros d Hd. apply (In_nth _ _ 0) in Hd as (i & Hi & <-). rewrite LD in Hi.
    rewrite distances_nth by lia. unfold nth_hi, nth_lo, stencil_limits. rewrite !nth_repeat_lt by lia. apply Qc_is_canon. reflexivity. }
  assert (B0 : forall v i, (v = - q52 \/ v = 0 \/ v = q52) -> (i = 0 \/ i = Q2Qc (5 # 6)) -> qabs (v + i) <= Q2Qc (10 # 3)).
  { intros v i [-> |[-> | ->]] [-> | ->]; apply leb_spec; reflexivity. }
  intros s p x Hs Hp Hx. apply in_map_iff in Hs as (v & <- & Hv). apply filter_In in Hv as [Hv _].
  apply stencil_vertices in Hv as [Lv FV]. rewrite mesh_simplex_eq in Hp by lia. rewrite Forall_forall in FV.
  destruct Hp as [<- |Hp].
  - rewrite <- (Qcplus_0_r x). apply B0; auto.
  - destruct (displaced_coord v _ p x (eq_trans Lv (eq_sym LD)) Hp Hx) as [H|(a & d & H1 & H2 & ->)].
    + rewrite <- (Qcplus_0_r x). apply B0; auto.
    + apply B0; auto. Qed.

(** When the components differ by at most half a period, the nearest image is the
    position itself. *)
Lemma delta1_half lo hi x y : lo < hi -> qc 2 * qabs (y - x) <= hi - lo ->
  delta1 true (lo, hi) (x, y) * delta1 true (lo, hi) (x, y) = (y - x) * (y - x).
Proof. intros Hl Hd. apply Qcle_antisym.
  - pose proof (@delta1_minimal lo hi x y 0 Hl) as H. rewrite qc_0 in H. replace (y - (x + 0 * (hi - lo))) with (y - x) in H by ring. exact H.
  - destruct (@delta1_attained lo hi x y Hl) as [k ->]. replace (qc 2) with (1 + 1) in Hd by (apply Qc_is_canon; reflexivity).
    assert (K : (k = 0 \/ 1 <= k \/ k <= -1)%Z) by lia. destruct K as [-> |K].
    { rewrite qc_0. replace (y - (x + 0 * (hi - lo))) with (y - x) by ring. apply Qcle_refl. }
    replace (y - (x + qc k * (hi - lo))) with ((y - x) - qc k * (hi - lo)) by ring. set (d := y - x) in *. set (s := hi - lo) in *.
    assert (0 < s) by (unfold s; qlra). clearbody d s.
    assert (D : (1 + 1) * d <= s /\ - s <= (1 + 1) * d). { unfold qabs in Hd. dltb d 0; split; qlra. } destruct D as [D1 D2].
    destruct K as [K|K]; apply qc_le in K.
    + rewrite qc_1 in K. clear Hd. assert (T : s <= qc k * s) by (set (z := qc k) in *; clearbody z; clear - K H; qnra). set (t := qc k * s) in *. clearbody t.
      replace ((d - t) * (d - t)) with (d * d + t * (t - (1 + 1) * d)) by ring. assert (0 <= t) by qlra. assert (0 <= t - (1 + 1) * d) by qlra. set (u := t - _) in *. clearbody u. clear - H0 H1. qnra.
    + change (-1)%Z with (-(1))%Z in K. rewrite qc_opp, qc_1 in K. clear Hd. assert (T : qc k * s <= - s) by (set (z := qc k) in *; clearbody z; clear - K H; qnra). set (t := qc k * s) in *. clearbody t.
      replace ((d - t) * (d - t)) with (d * d + (- t) * ((1 + 1) * d - t)) by ring. assert (0 <= - t) by qlra. assert (0 <= (1 + 1) * d - t) by qlra. set (u := (1 + 1) * d - t) in *. set (w := - t) in *. clearbody u w. clear - H0 H1. qnra. Qed.

Lemma dist_sq_half cs p q : wf_box cs -> is_pos cs p -> is_pos cs q ->
  (periodic cs = true -> forall i, (i < length (limits cs))%nat -> qc 2 * qabs (nth i q 0 - nth i p 0) <= nth_hi (limits cs) i - nth_lo (limits cs) i) ->
  dist_sq cs p q = euclid_sq p q.
Proof. intros W Hp Hq H. destruct (periodic cs) eqn:Per; [|apply dist_sq_nonper; auto]. specialize (H eq_refl).
  unfold dist_sq. rewrite Per. unfold wf_box, is_pos in *. revert p q Hp Hq H W. generalize (limits cs) as ls.
  induction ls as [|[lo hi] ls IH]; intros [|x p] [|y q] Lp Lq H W; cbn in *; try lia; auto.
  inversion W as [|? ? W1 W2]; subst. cbn in W1. unfold qsum in *. rewrite delta1_half; auto.
  - f_equal. apply IH; auto. intros i Hi. apply (H (S i) ltac:(lia)).
  - apply (H 0%nat). lia. Qed.

Lemma euclid_vadd p v : length p = length v -> euclid_sq p (vadd p v) = qsum (map (fun x => x * x) v).
Proof. revert v. induction p as [|x p IH]; intros [|y v] L; cbn in *; try lia; auto. unfold vadd, qsum in *. cbn. rewrite IH by lia. ring. Qed.

Lemma sq_scale c v : qsum (map (fun x => x * x) (map (fun x => x * c) v)) = c * c * qsum (map (fun x => x * x) v).
Proof. unfold qsum. induction v as [|x v IH]; cbn; [ring|]. rewrite IH. ring. Qed.
