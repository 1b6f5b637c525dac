(** Specifications for the mathematical helper functions. *)
From Coq Require Import List ZArith Reals.
From Verif Require Import Base Float NumPy Proof_NumPy.
Import ListNotations.
Open Scope R_scope.

(** ** Smoothing *)
(** Position k of data with n points that is mirrored at its first and last point. *)
Definition mirror (n : nat) (k : Z) : nat :=
  Z.to_nat (if (k <? 0)%Z then - k else if (Z.of_nat n <=? k)%Z then 2 * (Z.of_nat n - 1) - k else k).
(** The bell curve with standard deviation sigma, up to a factor. *)
Definition bell (sigma d : R) : R := exp (- (1 / 2) * (d / sigma) ^ 2).
(** The number of points of a window that reaches from -r in steps of 1 to at most r (and a
    hundred-thousandth). *)
Definition window_points (r : R) (m : nat) : Prop := INR m - 1 < 2 * r + / 10 ^ 5 <= INR m.

(** ** Derivatives *)
(** The i-th sample lies on the line y = a x + b. *)
Definition on_line (a b : R) (x y : list R) : Prop :=
  length y = length x /\ forall i, (i < length x)%nat -> nth i y 0 = a * nth i x 0 + b.
(** The slope between samples i and j. *)
Definition secant (x y : list R) (i j : nat) : fl :=
  fdiv (FV (nth j y 0 - nth i y 0)) (FV (nth j x 0 - nth i x 0)).

(** ** Kramers-Kronig transform *)
(** The discrete Hilbert kernel for N points, (1/N) cot(pi d/N) with the terms that a finite
    number of points adds; d is the distance between two points. *)
Definition hilbert_kernel (N : nat) (d : Z) : R :=
  let a := PI * IZR d / INR N in
  if (d mod Z.of_nat N =? 0)%Z then 0
  else if Nat.even N then (if Z.even d then 0 else 2 * cos a / sin a / INR N)
  else (cos a - (if Z.even d then 1 else -1)) / sin a / INR N.
(** Every voltage step is within a hundred-thousandth of the first. *)
Definition even_grid (v : list R) : Prop :=
  forall k, (S k < length v)%nat -> Rabs ((nth 1 v 0 - nth 0 v 0) - (nth (S k) v 0 - nth k v 0)) < / 10 ^ 5.
(** The list is odd about its middle. *)
Definition odd_list (l : list R) : Prop := forall k, (k < length l)%nat -> nth (length l - 1 - k) l 0 = - nth k l 0.
(** No voltage step exceeds the first by a hundred-thousandth (steps may shrink by any amount). *)
Definition shrinks_ok (v : list R) : Prop :=
  forall k, (S k < length v)%nat -> (nth (S k) v 0 - nth k v 0) - (nth 1 v 0 - nth 0 v 0) < / 10 ^ 5.
(** The combination a*x + b*y of two lists, element by element. *)
Definition mix (a b : R) (x y : list R) : list R := zipwith (fun u v => a * u + b * v) x y.
