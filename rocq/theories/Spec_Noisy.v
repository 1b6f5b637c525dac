(** Vocabulary for inexact measurements made with a circuit of the search range. *)
From Coq Require Import List ZArith Reals.
From Coquelicot Require Import Complex.
From Verif Require Import Bessel Spec_Known Spec_Rise.
Open Scope R_scope.

(** The resistance and the reactance of zs are in these ranges. *)
Definition in_range (remb xemb : R * R) (zs : C) : Prop := fst remb <= Re zs <= snd remb /\ fst xemb <= Im zs <= snd xemb.
(** How far zs may be from the grid of 101 resistances and 201 reactances. *)
Definition half_cell (remb xemb : R * R) : R := (snd remb - fst remb) / 200 + (snd xemb - fst xemb) / 400.
(** How far off the drive levels may be: the resolution of the search, and the effect of
    currents that are off by d at drive levels from a0, where one photon step adds at least g. *)
Definition level_error (A d g a0 : R) : R := A / 2 ^ 16 + 14 * d / (g * a0).
(** The current i at the bias v has been measured, with an error of at most d, on a junction with
    these currents, at most M, behind the circuit zs, Vs, at the drive level a, which is from
    a0 and between D and A - D; the first photon step dominates and adds at least g. *)
Definition sample_about (idc ikk : R -> R) (vph : R) (b : nat) (zs : C) (Vs M A D d g a0 v i a : R) : Prop :=
  first_step idc vph b v /\ g <= gain idc vph v 0 /\ bounded_steps idc ikk vph b M v /\
  a0 <= a /\ D < a <= A - D /\ Rabs (i - dc_current idc vph b v a) <= d /\ driven_to idc ikk vph b zs Vs v a.
Definition pumped_about (idc ikk : R -> R) (vph : R) (b : nat) (B : list (R * R)) (zs : C) (Vs M A D d g a0 : R) : Prop :=
  forall v i, In (v, i) B -> exists a, sample_about idc ikk vph b zs Vs M A D d g a0 v i a.

(** Voltages v and currents I, with coefficients c under which the balances |v + z I| = V of a
    circuit z, V add up to an equation for tr Re z + tx Im z. *)
Definition weighted (pts : list (R * C)) (c : list R) (f : R * C -> R) : R := fold_right Rplus 0 (map (fun p => snd p * f (fst p)) (List.combine pts c)).
Definition tells (pts : list (R * C)) (c : list R) (tr tx : R) : Prop :=
  weighted pts c (fun p => 2 * fst p * Re (snd p)) = tr /\ weighted pts c (fun p => - 2 * fst p * Im (snd p)) = tx /\
  weighted pts c (fun p => Cmod (snd p) ^ 2) = 0 /\ weighted pts c (fun _ => 1) = 0.
Definition size (c : list R) : R := fold_right Rplus 0 (map Rabs c).
