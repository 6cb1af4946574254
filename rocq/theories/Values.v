(** Function values: IEEE-style extended rationals (exact, with infinities and
    NaN), and the minimization result records of
    nodefinder/search/result/_minimization.py. *)
From Verif Require Import Base CoordSys.
Open Scope Qc_scope.

(** A Python float as far as comparisons and the sums used here are concerned;
    finite values are exact rationals, the two zeros are identified. *)
Inductive fval := NaN | NInf | Fin (q : Qc) | PInf.

#[global] Instance EqDec_fval : EqDec fval.
Proof. intros [| |x|] [| |y|]; try (right; discriminate); try (left; reflexivity).
  destruct (eq_dec x y); [left | right]; congruence. Defined.

(** Python [x < y] on floats *)
Definition flt (x y : fval) : bool :=
  match x, y with
  | NaN, _ | _, NaN => false
  | NInf, NInf => false
  | NInf, _ => true
  | _, NInf => false
  | PInf, _ => false
  | Fin _, PInf => true
  | Fin a, Fin b => ltb a b
  end.
(** Python [x <= y] *)
Definition fle (x y : fval) : bool :=
  match x, y with
  | NaN, _ | _, NaN => false
  | NInf, _ => true
  | _, NInf => false
  | _, PInf => true
  | PInf, Fin _ => false
  | Fin a, Fin b => leb a b
  end.
(** Python [x > y] *)
Definition fgt (x y : fval) : bool := flt y x.

(** [x + y] *)
Definition fadd (x y : fval) : fval :=
  match x, y with
  | NaN, _ | _, NaN => NaN
  | PInf, NInf | NInf, PInf => NaN
  | PInf, _ | _, PInf => PInf
  | NInf, _ | _, NInf => NInf
  | Fin a, Fin b => Fin (a + b)
  end.
(** [abs(x - y)] *)
Definition fabsdiff (x y : fval) : fval :=
  match x, y with
  | NaN, _ | _, NaN => NaN
  | PInf, PInf | NInf, NInf => NaN
  | Fin a, Fin b => Fin (qabs (a - b))
  | _, _ => PInf
  end.

(** result/_minimization.py:74-98 [MinimizationResult]; [message] is a function
    of [status] and omitted.  [fun_simplex_history] is absent when the history
    is not kept (_nelder_mead.py:222-228). *)
Record min_result := mk_min_result {
  r_pos : point;
  r_value : fval;
  r_success : bool;
  r_status : Z;
  r_num_fev : nat;
  r_num_iter : nat;
  r_simplex_history : list (list point);
  r_fun_history : option (list (list fval))
}.

(** result/_minimization.py:23-70 [JoinedMinimizationResult]: [__getattr__] is
    only consulted for attributes that are not set on the object; the attribute
    [pos] can be set on the wrapper itself ([add_result] does that), which is
    [j_pos]. *)
Inductive result :=
| Plain (r : min_result)
| Joined (child ancestor : min_result) (j_pos : option point).

(** attribute access [res.pos] (result/_minimization.py:49-59 for a wrapper) *)
Definition pos_of (r : result) : point :=
  match r with
  | Plain m => r_pos m
  | Joined c _ (Some p) => p
  | Joined c _ None => r_pos c
  end.
Definition value_of (r : result) : fval :=
  match r with Plain m => r_value m | Joined c _ _ => r_value c end.
Definition success_of (r : result) : bool :=
  match r with Plain m => r_success m | Joined c _ _ => r_success c end.
Definition status_of (r : result) : Z :=
  match r with Plain m => r_status m | Joined c _ _ => r_status c end.
(** result/_minimization.py:40-42,54-69: joined attributes, ancestor first *)
Definition num_fev_of (r : result) : nat :=
  match r with Plain m => r_num_fev m | Joined c a _ => r_num_fev a + r_num_fev c end.
Definition num_iter_of (r : result) : nat :=
  match r with Plain m => r_num_iter m | Joined c a _ => r_num_iter a + r_num_iter c end.
Definition simplex_history_of (r : result) : list (list point) :=
  match r with Plain m => r_simplex_history m
  | Joined c a _ => r_simplex_history a ++ r_simplex_history c end.
(** AttributeError when the history was not kept *)
Definition fun_history_of (r : result) : res (list (list fval)) :=
  match r with
  | Plain m => match r_fun_history m with Some h => Ok h | None => Err AttributeError end
  | Joined c a _ =>
    match r_fun_history a, r_fun_history c with
    | Some h, Some h' => Ok (h ++ h')
    | _, _ => Err AttributeError
    end
  end.

(** assignment [res.pos = p] *)
Definition set_pos (r : result) (p : point) : result :=
  match r with
  | Plain m => Plain {| r_pos := p; r_value := r_value m; r_success := r_success m;
                        r_status := r_status m; r_num_fev := r_num_fev m;
                        r_num_iter := r_num_iter m; r_simplex_history := r_simplex_history m;
                        r_fun_history := r_fun_history m |}
  | Joined c a _ => Joined c a (Some p)
  end.
