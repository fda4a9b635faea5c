(** Model of include/bounds.hh.

    [learnta::Bounds] is [std::pair<double,bool>]; [(c,true)] reads "<= c" and
    [(c,false)] reads "< c".  The value [(numeric_limits<double>::max(), false)]
    used everywhere as "no bound" is the separate constructor [Inf].
    Simplification: doubles are exact rationals (no rounding, no NaN). *)
From Coq Require Import QArith ZArith Bool.
Open Scope Q_scope.

Inductive bound : Type :=
| Fin (c : Q) (incl : bool)
| Inf.

(** [double <] *)
Definition Qltb (a b : Q) : bool := negb (Qle_bool b a).

(** [std::pair] lexicographic [<=] (bounds.hh:12, std::pair::operator<=). *)
Definition ble (a b : bound) : bool :=
  match a, b with
  | _, Inf => true
  | Inf, Fin _ _ => false
  | Fin c s, Fin d t =>
      if Qltb c d then true
      else if Qeq_bool c d then implb s t else false
  end.

(** [std::pair] [<] *)
Definition blt (a b : bound) : bool := negb (ble b a).

(** [std::pair] [==] *)
Definition beqb (a b : bound) : bool := ble a b && ble b a.

(** [std::min(a,b)]: returns [a] unless [b < a]. *)
Definition bmin (a b : bound) : bound := if blt b a then b else a.

(** [std::max(a,b)]: returns [a] unless [a < b]. *)
Definition bmax (a b : bound) : bound := if blt a b then b else a.

(** bounds.hh:36-38, [operator+(Bounds,Bounds)].  DBL_MAX absorbs finite
    summands; DBL_MAX+DBL_MAX is inf, which behaves as [Inf] below since it is
    only ever compared with values [<= (DBL_MAX,false)].  [Qred] puts the
    fraction in lowest terms and does not change its value; without it the
    denominators of the model's fractions grow along a computation. *)
Definition badd (a b : bound) : bound :=
  match a, b with
  | Fin c s, Fin d t => Fin (Qred (c + d)) (s && t)
  | _, _ => Inf
  end.

(** bounds.hh:44-46, unary minus, on finite bounds.  ([-Inf] would be
    [(-DBL_MAX,false)]; callers that negate an infinite bound are modelled
    separately.) *)
Definition bneg (c : Q * bool) : Q * bool := (Qopp (fst c), snd c).

(** bounds.hh:17-22 *)
Definition isPoint (ub lb : bound) : bool :=
  match ub, lb with
  | Fin u us, Fin l ls => Qeq_bool (Qopp l) u && us && ls
  | _, _ => false
  end.

(** bounds.hh:24-29 *)
Definition isUnitOpen (ub lb : bound) : bool :=
  match ub, lb with
  | Fin u us, Fin l ls => Qeq_bool (Qopp l + 1) u && negb us && negb ls
  | _, _ => false
  end.

(** bounds.hh:31-33 *)
Definition isSimpleB (ub lb : bound) : bool := isPoint ub lb || isUnitOpen ub lb.

(** ** Meaning of a bound (specification): which differences it admits. *)
Definition bsat (b : bound) (q : Q) : Prop :=
  match b with
  | Fin c true => q <= c
  | Fin c false => q < c
  | Inf => True
  end.
