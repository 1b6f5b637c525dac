(** Floating-point values with exact arithmetic on finite numbers: a real number, an
    infinity or NaN.  There is no rounding, no overflow and no signed zero. *)
From Coq Require Import Reals Bool.
From Verif Require Import Model_QtCurrent.

Inductive fl := FV (x : R) | FPInf | FNInf | FNaN.

(** IEEE comparisons: false whenever NaN is involved. *)
Definition feq (a b : fl) : bool :=
  match a, b with
  | FV x, FV y => Reqb x y
  | FPInf, FPInf | FNInf, FNInf => true
  | _, _ => false
  end.
Definition flt (a b : fl) : bool :=
  match a, b with
  | FV x, FV y => Rltb x y
  | FV _, FPInf | FNInf, FV _ | FNInf, FPInf => true
  | _, _ => false
  end.
Definition fle (a b : fl) : bool := flt a b || feq a b.
Definition fisnan (a : fl) : bool := match a with FNaN => true | _ => false end.

Definition fabs (a : fl) : fl :=
  match a with FV x => FV (Rabs x) | FPInf | FNInf => FPInf | FNaN => FNaN end.
Definition fopp (a : fl) : fl :=
  match a with FV x => FV (- x) | FPInf => FNInf | FNInf => FPInf | FNaN => FNaN end.
Definition fadd (a b : fl) : fl :=
  match a, b with
  | FNaN, _ | _, FNaN => FNaN
  | FV x, FV y => FV (x + y)
  | FPInf, FNInf | FNInf, FPInf => FNaN
  | FPInf, _ | _, FPInf => FPInf
  | FNInf, _ | _, FNInf => FNInf
  end.
Definition fsub (a b : fl) : fl := fadd a (fopp b).

(** The infinity with the sign of x (x <> 0). *)
Definition finf (x : R) : fl := if Rltb x 0 then FNInf else FPInf.

Definition fmul (a b : fl) : fl :=
  match a, b with
  | FNaN, _ | _, FNaN => FNaN
  | FV x, FV y => FV (x * y)
  | FV x, FPInf | FPInf, FV x => if Reqb x 0 then FNaN else finf x
  | FV x, FNInf | FNInf, FV x => if Reqb x 0 then FNaN else finf (- x)
  | FPInf, FPInf | FNInf, FNInf => FPInf
  | FPInf, FNInf | FNInf, FPInf => FNInf
  end.
(** Division; the zero divisor is taken as +0. *)
Definition fdiv (a b : fl) : fl :=
  match a, b with
  | FNaN, _ | _, FNaN => FNaN
  | FV x, FV y => if Reqb y 0 then (if Reqb x 0 then FNaN else finf x) else FV (x / y)
  | FV _, _ => FV 0
  | FPInf, FV y => if Rltb y 0 then FNInf else FPInf
  | FNInf, FV y => if Rltb y 0 then FPInf else FNInf
  | _, _ => FNaN
  end.
