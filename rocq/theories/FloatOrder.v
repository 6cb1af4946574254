(** The order of doubles, with infinities and NaN. *)
From Verif Require Import Base.
From Coq Require Import ZArith Reals.
From Flocq Require Import Core BinarySingleNaN.
From Verif Require Import Float FloatVector FloatMin.
From Coq Require Import Lra.
Open Scope list_scope.

(** doubles without the format: comparisons are those of these numbers *)
Inductive ext := ENan | ENInf | EFin (r : R) | EPInf.
Definition ext_of (x : double) : ext :=
  match x with
  | B754_nan => ENan
  | B754_infinity s => if s then ENInf else EPInf
  | _ => EFin (B2R x)
  end.
Definition ext_le (x y : ext) : Prop :=
  match x, y with
  | ENan, _ | _, ENan => False
  | ENInf, _ | _, EPInf => True
  | EFin a, EFin b => (a <= b)%R
  | _, _ => False
  end.
Definition ext_lt (x y : ext) : Prop :=
  match x, y with
  | ENan, _ | _, ENan => False
  | ENInf, ENInf | EPInf, _ | _, ENInf => False
  | EFin a, EFin b => (a < b)%R
  | _, _ => True
  end.
Lemma dle_ext x y : dle x y = true <-> ext_le (ext_of x) (ext_of y).
Proof. unfold dle. destruct (is_finite x && is_finite y)%bool eqn:F.
  - apply andb_true_iff in F as [Fx Fy]. rewrite Bleb_correct by auto.
    assert (ext_of x = EFin (B2R x)) as -> by (destruct x; try discriminate; auto).
    assert (ext_of y = EFin (B2R y)) as -> by (destruct y; try discriminate; auto). cbn.
    split; intros H; [destruct (Rle_bool_spec (B2R x) (B2R y)); [auto|discriminate]|apply Rle_bool_true; auto].
  - destruct x as [sx|sx| |sx mx ex bx], y as [sy|sy| |sy my ey b_y]; try discriminate; try destruct sx; try destruct sy; cbn; split; intros; auto; try discriminate; try tauto. Qed.
Lemma flt_ext x y : flt x y = true <-> ext_lt (ext_of x) (ext_of y).
Proof. unfold flt. destruct (is_finite x && is_finite y)%bool eqn:F.
  - apply andb_true_iff in F as [Fx Fy]. rewrite Bltb_correct by auto.
    assert (ext_of x = EFin (B2R x)) as -> by (destruct x; try discriminate; auto).
    assert (ext_of y = EFin (B2R y)) as -> by (destruct y; try discriminate; auto). cbn.
    split; intros H; [destruct (Rlt_bool_spec (B2R x) (B2R y)); [auto|discriminate]|apply Rlt_bool_true; auto].
  - destruct x as [sx|sx| |sx mx ex bx], y as [sy|sy| |sy my ey b_y]; try discriminate; try destruct sx; try destruct sy; cbn; split; intros; auto; try discriminate; try tauto. Qed.
Lemma nan_ext x : x <> nan <-> ext_of x <> ENan.
Proof. destruct x as [s|s| |s m e b]; cbn; try destruct s; split; intros H; try discriminate; try congruence; auto. Qed.
Lemma flt_false x y : flt x y = false <-> ~ ext_lt (ext_of x) (ext_of y).
Proof. rewrite <- flt_ext. destruct (flt x y); split; intros; congruence || auto. Qed.
Lemma dle_false x y : dle x y = false <-> ~ ext_le (ext_of x) (ext_of y).
Proof. rewrite <- dle_ext. destruct (dle x y); split; intros; congruence || auto. Qed.
Lemma is_nan_iff x : is_nan x = true <-> x = nan.
Proof. destruct x; cbn; split; intros H; try discriminate; auto. Qed.
Lemma dnle_ext x y : dnle x y = true <-> y = nan \/ ext_le (ext_of x) (ext_of y).
Proof. unfold dnle. rewrite orb_true_iff, is_nan_iff, dle_ext. tauto. Qed.

Ltac ext := rewrite ?dnle_ext, ?dle_ext, ?flt_ext, ?flt_false, ?dle_false, ?nan_ext in *;
  repeat match goal with x : double |- _ => generalize dependent (ext_of x); clear x; intros end;
  repeat match goal with x : ext |- _ => destruct x end; cbn in *; try tauto; try congruence; try lra.
Lemma dle_refl x : x <> nan -> dle x x = true.
Proof. intros. ext. Qed.
Lemma dlt_le x y : flt x y = true -> dle x y = true.
Proof. intros. ext. Qed.
Lemma not_dlt x y : x <> nan -> y <> nan -> flt x y = false -> dle y x = true.
Proof. intros. ext. Qed.
Lemma not_dle x y : x <> nan -> y <> nan -> dle x y = false -> dle y x = true.
Proof. intros. ext. Qed.
Lemma dle_trans x y z : dle x y = true -> dle y z = true -> dle x z = true.
Proof. intros. ext. Qed.
Lemma dlt_nnan_l x y : flt x y = true -> x <> nan.
Proof. intros. ext. Qed.
Lemma dle_nnan_l x y : dle x y = true -> x <> nan.
Proof. intros. ext. Qed.
Lemma dle_nnan_r x y : dle x y = true -> y <> nan.
Proof. intros. ext. Qed.
Lemma dnle_refl x : dnle x x = true.
Proof. destruct (is_nan x) eqn:E; unfold dnle; rewrite E; auto. cbn. apply dle_refl. intros ->; discriminate. Qed.
Lemma dnle_dle x y : y <> nan -> dnle x y = true -> dle x y = true.
Proof. unfold dnle. intros N H. apply orb_true_iff in H as [H|H]; auto. apply is_nan_iff in H. congruence. Qed.
Lemma dle_dnle x y : dle x y = true -> dnle x y = true.
Proof. unfold dnle. intros ->. apply orb_true_r. Qed.
Lemma dlt_dnle x y : flt x y = true -> dnle x y = true.
Proof. intros. apply dle_dnle, dlt_le; auto. Qed.
Lemma dnle_trans x y z : dnle x y = true -> dnle y z = true -> dnle x z = true.
Proof. unfold dnle. intros A B. apply orb_true_iff in B as [B|B]; [rewrite B; auto|]. apply orb_true_iff in A as [A|A].
  - apply is_nan_iff in A. subst. apply dle_nnan_l in B. congruence.
  - rewrite (dle_trans _ _ _ A B). apply orb_true_r. Qed.
Lemma dnle_total x y : dnle x y = true \/ dnle y x = true.
Proof. destruct (is_nan y) eqn:Ey; [left; unfold dnle; rewrite Ey; auto|]. destruct (is_nan x) eqn:Ex; [right; unfold dnle; rewrite Ex; auto|].
  assert (x <> nan) by (intros ->; discriminate). assert (y <> nan) by (intros ->; discriminate).
  destruct (dle x y) eqn:E; [left; apply dle_dnle; auto|right; apply dle_dnle, not_dle; auto]. Qed.
