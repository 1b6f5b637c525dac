(** The Kramers-Kronig integral and its discrete form. *)
From Coq Require Import ZArith Reals.
From Coquelicot Require Import Coquelicot.
Open Scope R_scope.

(** The discrete Hilbert kernel without periodic continuation: 2 / (pi d) for odd distances. *)
Definition open_kernel (d : Z) : R := if Z.even d then 0 else 2 / (PI * IZR d).

(** (1/pi) times the principal value of the integral of f(x) / (x - V) over the distances up to
    L from V, written as an integral without singularity. *)
Definition pairs (f : R -> R) (V u : R) : R := (f (V + u) - f (V - u)) / u.
Definition kk_integral (f : R -> R) (V L : R) : R := RInt (pairs f V) 0 L / PI.

(** A function with two derivatives, the second at most M in size. *)
Definition smooth (f : R -> R) (M : R) : Prop :=
  exists f1 f2, (forall x, is_derive f x (f1 x)) /\ (forall x, is_derive f1 x (f2 x)) /\ forall x, Rabs (f2 x) <= M.
