(** Vocabulary for the classical limit of the tunnelling currents. *)
From Coq Require Import Reals Arith.
From Coquelicot Require Import Coquelicot.
Open Scope R_scope.

(** The g k are the derivatives of g 0, up to the n-th. *)
Definition derivatives (n : nat) (g : nat -> R -> R) : Prop := forall k v, (k < n)%nat -> is_derive (g k) v (g (S k) v).
(** For large truncations the sequence is at most d away from x (up to any margin). *)
Definition settles_within (d : R) (u : nat -> R) (x : R) : Prop := forall eps, 0 < eps -> exists N, forall b, (N <= b)%nat -> Rabs (u b - x) < d + eps.
