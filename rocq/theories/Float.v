(** Model, in IEEE double precision, of the coordinate functions and the cell index of one
    coordinate: nodefinder/coordinate_system.py and
    nodefinder/search/result/_cell_list.py:64-69.  (The rest of the development uses exact
    arithmetic.)  Numbers are those of Flocq's [binary_float], including infinities and NaN;
    numpy applies the operations below to each coordinate separately, rounding to nearest,
    ties to even. *)
From Coq Require Import ZArith.
From Flocq Require Import Core BinarySingleNaN.
Open Scope Z_scope.

#[global] Instance Hprec : Prec_gt_0 53 := eq_refl.
#[global] Instance Hemax : Prec_lt_emax 53 1024 := eq_refl.
Definition double : Type := binary_float 53 1024.

Definition fadd : double -> double -> double := Bplus mode_NE.
Definition fsub : double -> double -> double := Bminus mode_NE.
Definition fmul : double -> double -> double := Bmult mode_NE.
Definition fdiv : double -> double -> double := Bdiv mode_NE.
Definition flt : double -> double -> bool := Bltb.
(** [m * 2^e], rounded *)
Definition of_dyadic (m e : Z) : double := binary_normalize 53 1024 Hprec Hemax mode_NE m e false.
(** conversion of integers *)
Definition of_int (n : Z) : double := of_dyadic n 0.
Definition fone : double := of_int 1.

(** C's [fmod]: the exact remainder of the quotient rounded towards zero *)
Definition fmod (x y : double) : double :=
  match x, y with
  | B754_finite sx mx ex _, B754_finite sy my ey _ =>
    let e := Z.min ex ey in
    binary_normalize 53 1024 Hprec Hemax mode_NE (Z.rem (cond_Zopp sx (Zpos mx * 2 ^ (ex - e))) (Zpos my * 2 ^ (ey - e))) e sx
  | B754_zero _, B754_finite _ _ _ _ | B754_zero _, B754_infinity _ | B754_finite _ _ _ _, B754_infinity _ => x
  | _, _ => B754_nan
  end.
(** numpy's [x % y] for floats ([npy_divmod]): the result of fmod is moved to the side of [y] *)
Definition np_mod (x y : double) : double :=
  let m := fmod x y in
  match m with
  | B754_zero _ => B754_zero (Bsign y)
  | _ => if Bool.eqb (flt y (B754_zero false)) (flt m (B754_zero false)) then m else fadd m y
  end.
(** conversion to a 64 bit integer: truncation; NaN and what does not fit becomes -2^63 *)
Definition to_int (x : double) : Z :=
  if (is_finite x && (Z.abs (Btrunc x) <? 2 ^ 63))%bool then Btrunc x else - 2 ^ 63.

(** one coordinate of a periodic box with limits [lo], [hi] *)
Section Box.
  Variables lo hi : double.
  (** coordinate_system.py:40 *)
  Definition fsize : double := fsub hi lo.
  (** coordinate_system.py:55-62 *)
  Definition fget_frac (p : double) : double := np_mod (fdiv (fsub p lo) fsize) fone.
  (** coordinate_system.py:105-112 *)
  Definition fnormalize (p : double) : double := fadd (np_mod (fsub p lo) fsize) lo.
End Box.

(** _cell_list.py:64-65 *)
Definition fcell_index (n : Z) (frac : double) : Z := to_int (fmul frac (of_int n)).
(** _cell_list.py:65-68: the same for a box that is not periodic (two more cells) *)
Definition fcell_index_open (n : Z) (frac : double) : Z := Z.max 0 (Z.min (to_int (fmul frac (of_int n)) + 1) (n + 2 - 1)).
(** identify/_dimension.py:86: [count >= (2 / 3) * total] *)
Definition ftwo_thirds (count total : Z) : bool := Bleb (fmul (fdiv (of_int 2) (of_int 3)) (of_int total)) (of_int count).
