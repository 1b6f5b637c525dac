(** What the phase of a complex number is. *)
From Coq Require Import Reals.
From Coquelicot Require Import Complex.
Open Scope R_scope.

(** phi is the phase of z: z = |z| (cos phi + j sin phi), in the range that ends at pi, and
    0 for z = 0. *)
Definition phase_of (z : C) (phi : R) : Prop :=
  Re z = Cmod z * cos phi /\ Im z = Cmod z * sin phi /\ - PI < phi <= PI /\ (z = RtoC 0 -> phi = 0).
