(** Model of the Tucker-theory helpers in qmix/exp/exp_data.py.  A bias sweep is
    a list; [idc] and [ikk] are the methods of the response function. *)
From Coq Require Import List ZArith Reals.
From Coquelicot Require Import Complex.
From Verif Require Import Base Spec_QtCurrent.
Import ListNotations.
Open Scope Z_scope.

Section Tucker.
(** scipy.special.jv(n, x) for n >= 0; for n < 0, [besselZ J]. *)
Variable J : nat -> R -> R.
Variables idc ikk : R -> R.

(** qmix/exp/exp_data.py:1894-1904 _find_pumped_iv_curve, at one bias voltage. *)
Definition pumped_iv (vph alpha : R) (num_b : nat) (vb : R) : R :=
  fold_left (fun dc n => (dc + (besselZ J n alpha) ^ 2 * idc (vb + IZR n * vph))%R)
    (zrange (- Z.of_nat num_b) (Z.of_nat num_b + 1)) 0%R.

Definition find_pumped_iv_curve (vb : list R) (vph alpha : R) (num_b : nat) : list R :=
  map (pumped_iv vph alpha num_b) vb.

(** qmix/exp/exp_data.py:1873-1891 _find_ac_current, at one bias voltage. *)
Definition ac_current (vph alpha : R) (num_b : nat) (vb : R) : C :=
  fold_left (fun ac n =>
      let j_n := besselZ J n alpha in
      let j_minus := besselZ J (n - 1) alpha in
      let j_plus := besselZ J (n + 1) alpha in
      let ac := Cplus ac (RtoC (j_n * (j_minus + j_plus) * idc (vb + IZR n * vph))) in
      Cplus ac (Cmult (Cmult Ci (RtoC (j_n * (j_minus - j_plus)))) (RtoC (ikk (vb + IZR n * vph)))))
    (zrange (- Z.of_nat num_b) (Z.of_nat num_b + 1)) (RtoC 0).

Definition find_ac_current (vb : list R) (vph alpha : R) (num_b : nat) : list C :=
  map (ac_current vph alpha num_b) vb.
End Tucker.
