(** An environment (libraries and numpy) as C72 requires it. *)
From Coq Require Import ZArith Reals Psatz List Permutation.
From Flocq Require Import Core BinarySingleNaN.
From Verif Require Import Base BaseFacts Graph SpecGraph GraphFacts SpecCluster Dimension Float FloatFacts FloatVector FloatVectorFacts FloatMin FloatCell SpecFloatCell FloatDistNum FloatCluster FloatIdentify SpecFloatIdentify FloatCellNum FloatCellFacts.
From Coq Require Import Lra.
Import ListNotations.
Open Scope list_scope.

(** ** all combinations *)
Lemma combs_in {A} (l : list A) : NoDup l -> forall k t, In t (combinations k l) -> choice_of l k t.
Proof. intros N. induction N as [|x l Nx N IH]; intros k t.
  - destruct k; cbn; intros []; try contradiction. subst. repeat split; auto using NoDup_nil. intros y [].
  - destruct k as [|k]; cbn [combinations].
    + intros [<-|[]]. repeat split; auto using NoDup_nil. intros y [].
    + rewrite in_app_iff, in_map_iff. intros [(t' & <- & I)|I]; apply IH in I as (I1 & I2 & I3).
      * split; [constructor; auto|]. split; [apply incl_cons; [left; auto|apply incl_tl; auto]|]. cbn. auto.
      * split; auto. split; auto using incl_tl. Qed.
Lemma incl_cases {A} (x : A) l t : incl t (x :: l) -> In x t \/ incl t l.
Proof. induction t as [|y t IH]; intros H; [right; intros z []|]. destruct (IH (fun z Hz => H z (or_intror Hz))) as [I|I]; [left; right; auto|].
  destruct (H y (or_introl eq_refl)) as [->|Hy]; [left; left; auto|]. right. apply incl_cons; auto. Qed.
Lemma combs_all {A} (l : list A) : forall k t, choice_of l k t -> exists t', In t' (combinations k l) /\ Permutation t t'.
Proof. induction l as [|x l IH]; intros k t (N & I & L).
  - destruct t as [|y t]; [|destruct (I y (or_introl eq_refl))]. subst k. exists []. split; [left|]; auto.
  - destruct (incl_cases x l t I) as [Hx|Hx].
    + destruct (in_split _ _ Hx) as (t1 & t2 & ->). destruct k as [|k]; [rewrite app_length in L; cbn in L; lia|].
      apply NoDup_remove in N as (N & Nx). destruct (IH k (t1 ++ t2)) as (t' & H & P).
      { split; auto. split; [|rewrite app_length in *; cbn in L; lia]. intros z Hz. destruct (I z) as [->|Hz']; [rewrite in_app_iff in *; cbn; tauto|contradiction|auto]. }
      exists (x :: t'). split; [cbn; apply in_app_iff; left; apply in_map; auto|]. rewrite <- Permutation_middle. auto.
    + destruct (IH k t) as (t' & H & P); [split; auto|]. exists t'. split; auto. destruct k; cbn [combinations]; [destruct l; exact H|]. apply in_app_iff. right. auto. Qed.
Lemma combs_once {A} (l : list A) : NoDup l -> forall k i j t t', nth_error (combinations k l) i = Some t -> nth_error (combinations k l) j = Some t' -> Permutation t t' -> i = j.
Proof. intros N. induction N as [|x l Nx N IH]; intros k i j t t'.
  - destruct k; cbn; [|destruct i; discriminate]. destruct i as [|[|]], j as [|[|]]; cbn; try discriminate; auto.
  - destruct k as [|k]; cbn [combinations].
    + destruct i as [|[|]], j as [|[|]]; cbn; try discriminate; auto.
    + assert (G : forall i t, nth_error (map (cons x) (combinations k l) ++ combinations (S k) l) i = Some t ->
        (exists u, t = x :: u /\ nth_error (combinations k l) i = Some u /\ (i < length (combinations k l))%nat) \/
        (~ In x t /\ (length (combinations k l) <= i)%nat /\ nth_error (combinations (S k) l) (i - length (combinations k l)) = Some t)).
      { clear i j t t'. intros i t H. destruct (le_lt_dec (length (combinations k l)) i) as [Hi|Hi].
        - right. rewrite nth_error_app2 in H by (rewrite map_length; auto). rewrite map_length in H. split; auto. intros X. apply nth_error_In in H. apply (combs_in l N) in H as (_ & H & _). apply Nx, H, X.
        - left. rewrite nth_error_app1 in H by (rewrite map_length; auto). rewrite nth_error_map in H. destruct (nth_error _ i) as [u|]; [|discriminate]. injection H as <-. eauto. }
      intros H1 H2 P. destruct (G _ _ H1) as [(u & -> & E1 & L1)|(X1 & L1 & E1)], (G _ _ H2) as [(u' & -> & E2 & L2)|(X2 & L2 & E2)].
      * apply (IH k i j u u'); auto. eapply Permutation_cons_inv; eauto.
      * elim X2. eapply Permutation_in; [exact P|left; auto].
      * elim X1. eapply Permutation_in; [apply Permutation_sym; exact P|left; auto].
      * pose proof (IH (S k) _ _ _ _ E1 E2 P). lia. Qed.
Lemma combs_choices {A} (l : list A) k : NoDup l -> all_choices l k (combinations k l).
Proof. intros N. split; [apply Forall_forall; apply combs_in; auto|]. split; [apply combs_all|]. apply combs_once; auto. Qed.

(** ** sums from left to right *)
Definition fsum_left (l : list double) : double := match l with [] => B754_zero false | x :: l' => fold_left fadd l' x end.
Lemma fsum_left_ok l : summed l (fsum_left l).
Proof. destruct l as [|x l]; [constructor|]. cbn [fsum_left]. assert (G : forall l l0 a, summed l0 a -> summed (l0 ++ l) (fold_left fadd l a)).
  { clear. induction l as [|x l IH]; intros l0 a H; [rewrite app_nil_r; exact H|]. cbn [fold_left]. replace (l0 ++ x :: l) with ((l0 ++ [x]) ++ l) by (rewrite <- app_assoc; reflexivity). apply IH. constructor; [exact H|constructor]. }
  apply (G l [x] x). constructor. Qed.

(** ** the environment *)
Definition simple_fenv : fenvironment :=
  mk_fenv (fun l => l) (fun l => l) (fun _ l => l) (fun g p dim => combinations dim (neighbors g p)) fsum_left fsum_left
    (fun vs => match vs with [v] => Ok [fnorm v] | _ => Ok [] end) (fun x _ => x) (fun g => Err IndexError).
Lemma sumsq_rlength v : rlength (map val v) = sqrt (sumsq v).
Proof. unfold rlength. f_equal. unfold sumsq. induction v as [|x v IH]; [reflexivity|]. cbn [map fold_right]. unfold rsum in *. cbn [map fold_right]. rewrite IH. ring. Qed.
Lemma simple_fenv_good : good_fenvironment simple_fenv.
Proof. split; [intros l; apply Permutation_refl|]. split; [intros l; apply Permutation_refl|]. split; [intros g l; apply Permutation_refl|].
  split; [intros g pos dim W; apply combs_choices; apply nodup_neighbors; auto|]. split; [apply fsum_left_ok|]. split; [apply fsum_left_ok|]. split; [|reflexivity].
  intros v Nv Lv H. exists (fnorm v). split; [reflexivity|]. destruct (norm_accurate v Lv) as (F & P & E).
  { eapply Forall_impl; [|exact H]. intros x (A & B). split; auto. eapply Rle_trans; [exact B|]. apply pw_le. lia. }
  split; auto. split; auto. rewrite sumsq_rlength. eapply Rle_trans; [exact E|]. apply Rplus_le_compat_r. apply Rmult_le_compat_r; [apply sqrt_pos|]. apply pw_le. lia. Qed.
