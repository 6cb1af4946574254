(** Lemmas about [Base]. *)
From Verif Require Import Base.
Open Scope Qc_scope.
Set Implicit Arguments.

(** ** Qc to Q reflection *)
Lemma this_add (x y : Qc) : (this (x + y) == this x + this y)%Q.
Proof. apply Qred_correct. Qed.
Lemma this_opp (x : Qc) : (this (- x) == - this x)%Q.
Proof. apply Qred_correct. Qed.
Lemma this_sub (x y : Qc) : (this (x - y) == this x - this y)%Q.
Proof. unfold Qcminus. rewrite this_add, this_opp. reflexivity. Qed.
Lemma this_mul (x y : Qc) : (this (x * y) == this x * this y)%Q.
Proof. apply Qred_correct. Qed.
Lemma this_of_Q (q : Q) : (this (Q2Qc q) == q)%Q.
Proof. apply Qred_correct. Qed.
Lemma this_qc (z : Z) : (this (qc z) == inject_Z z)%Q.
Proof. apply Qred_correct. Qed.
Lemma this_half : (this half == 1 # 2)%Q.
Proof. apply Qred_correct. Qed.
Lemma this_0 : (this 0 == 0)%Q. Proof. reflexivity. Qed.
Lemma this_1 : (this 1 == 1)%Q. Proof. reflexivity. Qed.
Lemma Qc_eq_Q (x y : Qc) : x = y <-> (this x == this y)%Q.
Proof. split; [intros ->; reflexivity | apply Qc_is_canon]. Qed.

Ltac qcq :=
  repeat match goal with
  | H : @eq Qc _ _ |- _ => apply Qc_eq_Q in H
  | H : not (@eq Qc _ _) |- _ => rewrite Qc_eq_Q in H
  | |- @eq Qc _ _ => apply Qc_eq_Q
  | |- not (@eq Qc _ _) => rewrite Qc_eq_Q
  end;
  unfold Qclt, Qcle in *;
  repeat (rewrite ?this_add, ?this_sub, ?this_mul, ?this_opp, ?this_of_Q,
          ?this_qc, ?this_half, ?this_0, ?this_1 in * ).
Ltac qlra := qcq; lra.
Ltac qnra := qcq; nra.

Lemma qc_add a b : qc (a + b) = qc a + qc b.
Proof. qcq. rewrite inject_Z_plus. reflexivity. Qed.
Lemma qc_sub a b : qc (a - b) = qc a - qc b.
Proof. qcq. unfold Z.sub. rewrite inject_Z_plus, inject_Z_opp. reflexivity. Qed.
Lemma qc_mul a b : qc (a * b) = qc a * qc b.
Proof. qcq. rewrite inject_Z_mult. reflexivity. Qed.
Lemma qc_opp a : qc (- a) = - qc a.
Proof. qcq. rewrite inject_Z_opp. reflexivity. Qed.
Lemma qc_le a b : qc a <= qc b <-> (a <= b)%Z.
Proof. qcq. rewrite Zle_Qle. tauto. Qed.
Lemma qc_lt a b : qc a < qc b <-> (a < b)%Z.
Proof. qcq. rewrite Zlt_Qlt. tauto. Qed.
Lemma qc_inj a b : qc a = qc b -> a = b.
Proof. intros H. qcq. unfold Qeq in H; simpl in H. lia. Qed.
Lemma qc_0 : qc 0 = 0. Proof. qcq. reflexivity. Qed.
Lemma qc_1 : qc 1 = 1. Proof. qcq. reflexivity. Qed.
Lemma qc_lt_succ a b : qc a < qc b + 1 -> (a <= b)%Z.
Proof. rewrite <- qc_1, <- qc_add, qc_lt. lia. Qed.
Lemma qc_pos a : 0 < qc a <-> (0 < a)%Z.
Proof. rewrite <- qc_0. apply qc_lt. Qed.
Lemma qc_nonneg a : 0 <= qc a <-> (0 <= a)%Z.
Proof. rewrite <- qc_0. apply qc_le. Qed.

(** ** Booleans *)
Lemma ltb_spec x y : ltb x y = true <-> x < y.
Proof. unfold ltb. destruct (Qclt_le_dec x y) as [H|H]; split; intros; try congruence; auto.
  exfalso. qlra. Qed.
Lemma ltb_false x y : ltb x y = false <-> y <= x.
Proof. unfold ltb. destruct (Qclt_le_dec x y) as [H|H]; split; intros; try congruence; auto.
  exfalso. qlra. Qed.
Lemma leb_spec x y : leb x y = true <-> x <= y.
Proof. unfold leb. rewrite negb_true_iff. apply ltb_false. Qed.
Lemma leb_false x y : leb x y = false <-> y < x.
Proof. unfold leb. rewrite negb_false_iff. apply ltb_spec. Qed.

Ltac dltb x y := let E := fresh "E" in
  destruct (ltb x y) eqn:E; [apply ltb_spec in E | apply ltb_false in E].
Ltac dleb x y := let E := fresh "E" in
  destruct (leb x y) eqn:E; [apply leb_spec in E | apply leb_false in E].

Lemma eqb_spec {A} `{EqDec A} (x y : A) : eqb x y = true <-> x = y.
Proof. unfold eqb. destruct (eq_dec x y); split; congruence. Qed.
Lemma eqb_false {A} `{EqDec A} (x y : A) : eqb x y = false <-> x <> y.
Proof. unfold eqb. destruct (eq_dec x y); split; congruence. Qed.
Lemma eqb_refl {A} `{EqDec A} (x : A) : eqb x x = true.
Proof. apply eqb_spec. reflexivity. Qed.
Lemma mem_spec {A} `{EqDec A} (x : A) l : mem x l = true <-> In x l.
Proof. unfold mem. rewrite existsb_exists. split.
  - intros [y [Hy E]]. apply eqb_spec in E. subst; auto.
  - intros Hx. exists x. split; auto. apply eqb_refl. Qed.
Lemma mem_false {A} `{EqDec A} (x : A) l : mem x l = false <-> ~ In x l.
Proof. rewrite <- mem_spec. destruct (mem x l); split; congruence. Qed.

Lemma in_remove_all {A} `{EqDec A} (x y : A) l : In y (remove_all x l) <-> In y l /\ y <> x.
Proof. unfold remove_all. rewrite filter_In, negb_true_iff, eqb_false. intuition congruence. Qed.
Lemma NoDup_filter {A} (f : A -> bool) l : NoDup l -> NoDup (filter f l).
Proof. induction 1 as [|x l Hx Hl IH]; simpl; [constructor|].
  destruct (f x); auto. constructor; auto. rewrite filter_In. tauto. Qed.
Lemma NoDup_remove_all {A} `{EqDec A} (x : A) l : NoDup l -> NoDup (remove_all x l).
Proof. apply NoDup_filter. Qed.
Lemma remove_all_notin {A} `{EqDec A} (x : A) l : ~ In x l -> remove_all x l = l.
Proof. induction l as [|y l IH]; simpl; auto. intros Hn.
  destruct (eqb x y) eqn:E; simpl.
  - apply eqb_spec in E. subst. tauto.
  - f_equal. apply IH. tauto. Qed.
Lemma length_remove_all {A} `{EqDec A} (x : A) l :
  NoDup l -> In x l -> length l = S (length (remove_all x l)).
Proof. induction 1 as [|y l Hy Hl IH]; simpl; [tauto|]. intros [->|Hi].
  - rewrite eqb_refl. simpl. fold (remove_all x l). rewrite remove_all_notin; auto.
  - destruct (eqb x y) eqn:E; simpl.
    + apply eqb_spec in E. subst. tauto.
    + fold (remove_all x l). rewrite IH; auto. Qed.
Lemma Permutation_remove_all {A} `{EqDec A} (x : A) l :
  NoDup l -> In x l -> Permutation l (x :: remove_all x l).
Proof. intros Hn Hi. apply NoDup_Permutation; auto.
  - constructor; [rewrite in_remove_all; tauto | apply NoDup_remove_all; auto].
  - intros y. simpl. rewrite in_remove_all. destruct (eq_dec y x); intuition congruence. Qed.

Lemma in_set_add {A} `{EqDec A} (x y : A) l : In y (set_add x l) <-> y = x \/ In y l.
Proof. unfold set_add. destruct (mem x l) eqn:E.
  - apply mem_spec in E. intuition congruence.
  - rewrite in_app_iff. simpl. intuition congruence. Qed.
Lemma NoDup_set_add {A} `{EqDec A} (x : A) l : NoDup l -> NoDup (set_add x l).
Proof. intros Hl. unfold set_add. destruct (mem x l) eqn:E; auto.
  apply mem_false in E. apply Permutation_NoDup with (x :: l).
  - apply Permutation_cons_append.
  - constructor; auto. Qed.
Lemma in_set_update {A} `{EqDec A} (y : A) new l : In y (set_update l new) <-> In y l \/ In y new.
Proof. revert l. induction new as [|x new IH]; simpl; intros l; [tauto|].
  rewrite IH, in_set_add. intuition congruence. Qed.
Lemma NoDup_set_update {A} `{EqDec A} (new l : list A) : NoDup l -> NoDup (set_update l new).
Proof. revert l. induction new as [|x new IH]; simpl; intros l Hl; auto.
  apply IH, NoDup_set_add, Hl. Qed.
Lemma in_dedup {A} `{EqDec A} (y : A) l : In y (dedup l) <-> In y l.
Proof. unfold dedup. rewrite in_set_update. simpl. tauto. Qed.
Lemma NoDup_dedup {A} `{EqDec A} (l : list A) : NoDup (dedup l).
Proof. apply NoDup_set_update. constructor. Qed.

(** ** map2 *)
Lemma map2_length {A B C} (f : A -> B -> C) l m :
  length l = length m -> length (map2 f l m) = length l.
Proof. revert m. induction l as [|a l IH]; destruct m as [|b m]; simpl; intros; auto; try lia. Qed.

(** ** min, max, abs *)
Lemma qmin_l x y : qmin x y <= x. Proof. unfold qmin. dltb y x; qlra. Qed.
Lemma qmin_r x y : qmin x y <= y. Proof. unfold qmin. dltb y x; qlra. Qed.
Lemma qmin_cases x y : (qmin x y = x /\ x <= y) \/ (qmin x y = y /\ y <= x).
Proof. unfold qmin. dltb y x; [right|left]; split; auto; qlra. Qed.
Lemma qmax_l x y : x <= qmax x y. Proof. unfold qmax. dltb x y; qlra. Qed.
Lemma qmax_r x y : y <= qmax x y. Proof. unfold qmax. dltb x y; qlra. Qed.
Lemma qabs_cases x : (0 <= x /\ qabs x = x) \/ (x < 0 /\ qabs x = - x).
Proof. unfold qabs. dltb x 0; auto. Qed.
Lemma qabs_nonneg x : 0 <= qabs x.
Proof. destruct (qabs_cases x) as [[H ->]|[H ->]]; qlra. Qed.
Lemma qabs_le x b : qabs x <= b <-> - b <= x /\ x <= b.
Proof. destruct (qabs_cases x) as [[H ->]|[H ->]]; split; intros; repeat split; qlra. Qed.
Lemma qabs_lt x b : qabs x < b <-> - b < x /\ x < b.
Proof. destruct (qabs_cases x) as [[H ->]|[H ->]]; split; intros; repeat split; qlra. Qed.
Lemma qabs_opp x : qabs (- x) = qabs x.
Proof. destruct (qabs_cases x) as [[H E]|[H E]], (qabs_cases (- x)) as [[H' E']|[H' E']];
  rewrite E, E'; qlra. Qed.

(** ** floor, trunc, mod *)
Lemma qfloor_spec x : qc (qfloor x) <= x /\ x < qc (qfloor x) + 1.
Proof. unfold qfloor. split; qcq.
  - apply Qfloor_le.
  - pose proof (Qlt_floor (this x)) as H. rewrite inject_Z_plus in H. exact H. Qed.
Lemma qfloor_unique x z : qc z <= x -> x < qc z + 1 -> qfloor x = z.
Proof. intros H1 H2. destruct (qfloor_spec x) as [H3 H4].
  assert (z <= qfloor x)%Z by (apply qc_lt_succ; qlra).
  assert (qfloor x <= z)%Z by (apply qc_lt_succ; qlra). lia. Qed.
Lemma qfloor_add_Z x z : qfloor (x + qc z) = (qfloor x + z)%Z.
Proof. destruct (qfloor_spec x). apply qfloor_unique; rewrite qc_add; qlra. Qed.
Lemma qfloor_qc z : qfloor (qc z) = z.
Proof. apply qfloor_unique; qlra. Qed.
Lemma qfloor_mono x y : x <= y -> (qfloor x <= qfloor y)%Z.
Proof. intros. destruct (qfloor_spec x), (qfloor_spec y). apply qc_lt_succ. qlra. Qed.
Lemma qfloor_nonneg x : 0 <= x -> (0 <= qfloor x)%Z.
Proof. intros. rewrite <- (qfloor_qc 0), qc_0. apply qfloor_mono; auto. Qed.

Lemma qtrunc_nonneg x : 0 <= x -> qtrunc x = qfloor x.
Proof. intros. unfold qtrunc. dltb x 0; auto. exfalso; qlra. Qed.
Lemma qtrunc_mono x y : x <= y -> (qtrunc x <= qtrunc y)%Z.
Proof. intros. unfold qtrunc. dltb x 0; dltb y 0.
  - assert (qfloor (- y) <= qfloor (- x))%Z by (apply qfloor_mono; qlra). lia.
  - assert (0 <= qfloor (- x))%Z by (apply qfloor_nonneg; qlra).
    assert (0 <= qfloor y)%Z by (apply qfloor_nonneg; qlra). lia.
  - exfalso. qlra.
  - apply qfloor_mono; auto. Qed.
Lemma qtrunc_neg_spec x : x < 0 -> qc (qtrunc x) - 1 < x /\ x <= qc (qtrunc x).
Proof. intros. unfold qtrunc. dltb x 0; [|exfalso; qlra].
  destruct (qfloor_spec (- x)). rewrite qc_opp. split; qlra. Qed.

Lemma qc_div_mul x s : s <> 0 -> x = (x / s) * s.
Proof. intros. field. auto. Qed.
Lemma pos_neq0 s : 0 < s -> s <> 0.
Proof. intros H E. subst. qlra. Qed.
#[global] Hint Resolve pos_neq0 : core.
Lemma div_le_mono x y s : 0 < s -> (x / s <= y / s <-> x <= y).
Proof. intros Hs. rewrite (qc_div_mul x (pos_neq0 Hs)) at 2. rewrite (qc_div_mul y (pos_neq0 Hs)) at 2.
  set (u := x / s) in *. set (v := y / s) in *. split; intros; qnra. Qed.
Lemma div_lt_iff x y s : 0 < s -> (x / s < y <-> x < y * s).
Proof. intros Hs. rewrite (qc_div_mul x (pos_neq0 Hs)) at 2.
  set (u := x / s) in *. split; intros; qnra. Qed.
Lemma div_le_iff x y s : 0 < s -> (x / s <= y <-> x <= y * s).
Proof. intros Hs. rewrite (qc_div_mul x (pos_neq0 Hs)) at 2.
  set (u := x / s) in *. split; intros; qnra. Qed.
Lemma le_div_iff x y s : 0 < s -> (y <= x / s <-> y * s <= x).
Proof. intros Hs. rewrite (qc_div_mul x (pos_neq0 Hs)) at 2.
  set (u := x / s) in *. split; intros; qnra. Qed.
Lemma lt_div_iff x y s : 0 < s -> (y < x / s <-> y * s < x).
Proof. intros Hs. rewrite (qc_div_mul x (pos_neq0 Hs)) at 2.
  set (u := x / s) in *. split; intros; qnra. Qed.

Lemma pymod_range x s : 0 < s -> 0 <= pymod x s /\ pymod x s < s.
Proof. intros Hs. unfold pymod. pose proof (qc_div_mul x (pos_neq0 Hs)) as E.
  set (u := x / s) in *. destruct (qfloor_spec u). rewrite E.
  set (k := qc (qfloor u)) in *. split; qnra. Qed.
Lemma pymod_shift x s : pymod x s = x - qc (qfloor (x / s)) * s.
Proof. unfold pymod. ring. Qed.
Lemma pymod_unique x s y k : 0 < s -> y = x - qc k * s -> 0 <= y -> y < s -> pymod x s = y.
Proof. intros Hs E H1 H2. unfold pymod. replace (qfloor (x / s)) with k; [rewrite E; ring|].
  symmetry. apply qfloor_unique.
  - apply le_div_iff; auto. qlra.
  - apply div_lt_iff; auto. qnra. Qed.
Lemma pymod_small x s : 0 <= x -> x < s -> pymod x s = x.
Proof. intros. apply pymod_unique with 0%Z; auto; rewrite ?qc_0; qlra. Qed.
Lemma pymod_add_mul x s k : 0 < s -> pymod (x + qc k * s) s = pymod x s.
Proof. intros Hs. destruct (pymod_range x Hs).
  apply pymod_unique with (k + qfloor (x / s))%Z; auto.
  rewrite pymod_shift, qc_add. ring. Qed.
Lemma pymod_idem x s : 0 < s -> pymod (pymod x s) s = pymod x s.
Proof. intros Hs. destruct (pymod_range x Hs). apply pymod_small; auto. Qed.

(** integers strictly between -1 and 1 *)
Lemma qc_abs_lt1 k : - (1) < qc k -> qc k < 1 -> k = 0%Z.
Proof. intros H1 H2. rewrite <- qc_1, qc_lt in H2. rewrite <- qc_1, <- qc_opp, qc_lt in H1. lia. Qed.

Lemma Forall2_impl {A B} (P Q : A -> B -> Prop) l m :
  (forall a b, P a b -> Q a b) -> Forall2 P l m -> Forall2 Q l m.
Proof. intros H. induction 1; constructor; auto. Qed.
