(** The response of a junction to a small signal (Tucker's quantum theory of detection). *)
From Coq Require Import Reals.
From Coquelicot Require Import Complex.
Open Scope R_scope.

(** The direct current at bias V with drive level a at photon voltage w: rectification by the
    second difference of the I-V curve. *)
Definition rectified (idc : R -> R) (w a V : R) : R := idc V + a ^ 2 / 4 * (idc (V + w) - 2 * idc V + idc (V - w)).
(** The alternating current: the difference quotients over a photon times the voltage a w. *)
Definition conductance (idc : R -> R) (w V : R) : R := (idc (V + w) - idc (V - w)) / (2 * w).
Definition susceptance (ikk : R -> R) (w V : R) : R := (ikk (V + w) - 2 * ikk V + ikk (V - w)) / (2 * w).
