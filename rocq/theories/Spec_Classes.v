(** Vocabulary for the tables of the response functions: the I-V curves they are made of, for
    normalized voltages and currents. *)
From Coq Require Import Reals.
Open Scope R_scope.

(** The polynomial curve of order n. *)
Definition polynomial_curve (n : nat) (v : R) : R := v ^ (2 * n + 1) / (1 + v ^ (2 * n)).
(** The exponential curve: the fraction s of the normal current flows, the rest is limited by the
    subgap resistance; s rises from 0 to 1 at both gaps, with sharpness agap. *)
Definition conducting (vgap agap v : R) : R := 1 / (1 + exp (agap * (v * vgap + vgap))) + 1 / (1 + exp (- agap * (v * vgap - vgap))).
Definition exponential_curve (vgap rn rsg agap v : R) : R := v * ((1 - conducting vgap agap v) * (rn / rsg) + conducting vgap agap v).
