(** Vocabulary for the curvature of a table. *)
From Coq Require Import List ZArith Reals.
Import ListNotations.
Open Scope R_scope.

(** The sum of the first k values. *)
Definition first_sum (w : list R) (k : nat) : R := fold_right Rplus 0 (firstn k w).
