(** What the theorems about neighbour lookups in double precision (C62) assume, and the
    histories of a container. *)
From Coq Require Import ZArith Reals List.
From Flocq Require Import Core BinarySingleNaN.
From Verif Require Import Base CoordSys CellList Float FloatVector FloatMin FloatCell.
Import ListNotations.
Open Scope list_scope.
Open Scope R_scope.

(** the size of a box in one dimension, as computed *)
Definition fbox_size (b : double * double) : R := B2R (fsub (snd b) (fst b)).
(** a box of any reasonable size: finite limits below 2^400, size at least 2^-400 *)
Definition good_box (b : double * double) : Prop :=
  is_finite (fst b) = true /\ is_finite (snd b) = true /\ B2R (fst b) < B2R (snd b) /\
  Rabs (B2R (fst b)) <= bpow radix2 400 /\ Rabs (B2R (snd b)) <= bpow radix2 400 /\ bpow radix2 (-400) <= fbox_size b.
(** a finite coordinate, inside the box or outside by up to 2^10 box sizes *)
Definition good_coord (b : double * double) (x : double) : Prop :=
  is_finite x = true /\ Rabs (B2R x - B2R (fst b)) <= bpow radix2 10 * fbox_size b.
Definition good_position (boxes : list (double * double)) (p : list double) : Prop := Forall2 good_coord boxes p.
Definition good_cutoff (c : double) : Prop := is_finite c = true /\ bpow radix2 (-400) <= B2R c <= bpow radix2 400.
(** not below the lower limit, and at most half a box size above the upper one *)
Definition in_box (b : double * double) (x : double) : Prop :=
  is_finite x = true /\ B2R (fst b) <= B2R x <= fbox_size b + fbox_size b / 2 + B2R (fst b).

(** a result that counts as a node; the form in which it is stored *)
Definition is_fnode (gap : double) (r : dmin_result) : bool := dr_success r && negb (Bltb gap (dr_value r)).
Definition fstored (per : bool) (boxes : list (double * double)) (r : dmin_result) : dmin_result :=
  fset_pos r (map2 (fnormalize1 per) boxes (dr_pos r)).
(** some coordinate differs *)
Definition differ (p q : list double) : Prop := exists i x y, nth_error p i = Some x /\ nth_error q i = Some y /\ B2R x <> B2R y.

(** [c] is a container to which the results [rs] and the refined positions [ps] were passed, to
    the constructor and later, in any order *)
Inductive fhistory (per : bool) (boxes : list (double * double)) (gap cutoff : double) : list dmin_result -> list (list double) -> fcontainer -> Prop :=
| fh_new rs ps c : fcontainer_new per boxes gap cutoff rs ps = Ok c -> fhistory per boxes gap cutoff rs ps c
| fh_add rs ps c r c' b : fhistory per boxes gap cutoff rs ps c -> fadd_result c r = Ok (c', b) -> fhistory per boxes gap cutoff (rs ++ [r]) ps c'
| fh_refined rs ps c p c' : fhistory per boxes gap cutoff rs ps c -> fset_refined c p = Ok c' -> fhistory per boxes gap cutoff rs (ps ++ [p]) c'.

(** the square of the exact distance of [p] from the periodic image of [q] shifted by [ks] box
    sizes *)
Fixpoint image_dist_sq (boxes : list (double * double)) (p q : list double) (ks : list Z) : R :=
  match boxes, p, q, ks with
  | b :: boxes', x :: p', y :: q', k :: ks' => (B2R x - B2R y - IZR k * fbox_size b) ^ 2 + image_dist_sq boxes' p' q' ks'
  | _, _, _, _ => 0
  end.
(** the square of the exact distance is at most [d^2]; with periodicity for some image *)
Definition within_dist (per : bool) (boxes : list (double * double)) (p q : list double) (d : R) : Prop :=
  exists ks, length ks = length boxes /\ (per = false -> Forall (fun k => k = 0%Z) ks) /\ image_dist_sq boxes p q ks <= d ^ 2.

(** [refined] positions are those for which the cell of [set_refined] exists: inside the box if
    it is periodic (positions of stored results are, [C62_stored_in_box]) *)
Definition good_refined (per : bool) (boxes : list (double * double)) (p : list double) : Prop :=
  Forall2 (fun b x => if per then in_box b x else good_coord b x) boxes p.

(** ** Checks (C63) *)
(** the cutoff reduced by the relative margin 2^-30 *)
Definition reduced (cutoff : double) : R := B2R cutoff * (1 - bpow radix2 (-30)).
(** a container reached with the given arguments and positions, in a setting where lookups are
    reliable (C62) *)
Definition reliable (per : bool) (boxes : list (double * double)) (gap cutoff : double) (rs : list dmin_result) (ps : list (list double)) (c : fcontainer) : Prop :=
  Forall good_box boxes /\ (length boxes <= 64)%nat /\ good_cutoff cutoff /\ (per = true \/ Forall (fun b => B2R cutoff <= fbox_size b) boxes) /\
  Forall (fun r => good_position boxes (dr_pos r)) rs /\ Forall (good_refined per boxes) ps /\ fhistory per boxes gap cutoff rs ps c.
(** some node (not at [q] itself) has a computed distance from [q] for which [close] holds *)
Definition node_at (per : bool) (boxes : list (double * double)) (gap : double) (rs : list dmin_result) (q : list double) (close : double -> Prop) : Prop :=
  exists r, In r rs /\ is_fnode gap r = true /\ let p := dr_pos (fstored per boxes r) in differ p q /\ close (fdist per boxes q p).
Definition less (width d : double) : Prop := is_finite d = true /\ B2R d < B2R width.
(** any two refined positions have a computed distance above the reduced cutoff *)
Definition separated (per : bool) (boxes : list (double * double)) (cutoff : double) (ps : list (list double)) : Prop :=
  forall i j p p', (i < j)%nat -> nth_error ps i = Some p -> nth_error ps j = Some p' -> reduced cutoff < B2R (fdist per boxes p' p).
(** at least [n] elements (at different places) have the property *)
Inductive at_least {A} (P : A -> Prop) : nat -> list A -> Prop :=
| al_zero l : at_least P 0 l
| al_yes n a l : P a -> at_least P n l -> at_least P (S n) (a :: l)
| al_skip n a l : at_least P n l -> at_least P n (a :: l).
