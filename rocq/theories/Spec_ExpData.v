(** Specification vocabulary for impedance recovery and the experimental data classes. *)
From Coq Require Import List Reals String.
From Coquelicot Require Import Complex.
From Verif Require Import Model_Tucker Model_ExpData.
Import ListNotations.
Open Scope R_scope.

(** Samples of a junction driven by an embedding circuit: pairs of the AC voltage and the
    impedance of the junction.  A source V with impedance zs produces a voltage of magnitude
    V |z / (zs + z)| across an impedance z; this is the mean squared mismatch. *)
Definition mismatch (pts : list (C * C)) (zs : C) (V : R) : R :=
  fold_right Rplus 0 (map (fun p => (Cmod (fst p) - V * Cmod (Cdiv (snd p) (Cplus zs (snd p)))) ^ 2) pts) / INR (List.length pts).
(** The circuit with impedance zs can be connected to every sample, and some sample has a
    voltage if the source has one. *)
Definition connectable (pts : list (C * C)) (zs : C) : Prop :=
  (forall p, In p pts -> Cplus zs (snd p) <> RtoC 0) /\ exists p, In p pts /\ snd p <> RtoC 0.

(** Position i, j on a grid of 101 resistances and 201 reactances. *)
Definition grid_point (remb xemb : R * R) (i j : nat) : C :=
  (fst remb + INR i * ((snd remb - fst remb) / 100), fst xemb + INR j * ((snd xemb - fst xemb) / 200)).

(** The samples of an I-V curve on the first photon step, below the gap voltage 1, at
    relative positions from lo to hi. *)
Definition step_samples (vph lo hi : R) (voltage current : list R) : list (R * R) :=
  filter (fun p => if Rle_dec (1 - vph + vph * lo) (fst p) then if Rle_dec (fst p) (1 - vph + vph * hi) then true else false else false)
    (List.combine voltage current).
(** The interval is given, or it is the documented default. *)
Definition range_used (q : recparams) (lo hi : R) : Prop := r_fit_range q = Some (Some (lo, hi)) \/ (r_fit_range q = None /\ lo = 1 / 4 /\ hi = 8 / 10).
(** The same arguments with other values of fit_range, or of cut_low and cut_high. *)
Definition with_range (q : recparams) (g : option (option (R * R))) : recparams :=
  {| r_fit_range := g; r_cut_low := r_cut_low q; r_cut_high := r_cut_high q; r_remb := r_remb q; r_xemb := r_xemb q; r_zemb := r_zemb q; r_alpha_max := r_alpha_max q; r_num_b := r_num_b q |}.
Definition with_cuts (q : recparams) (cl ch : option R) : recparams :=
  {| r_fit_range := r_fit_range q; r_cut_low := cl; r_cut_high := ch; r_remb := r_remb q; r_xemb := r_xemb q; r_zemb := r_zemb q; r_alpha_max := r_alpha_max q; r_num_b := r_num_b q |}.
(** The AC voltage and the impedance of a junction at bias voltage v with drive level a. *)
Definition junction_sample (J : nat -> R -> R) (idc ikk : R -> R) (vph : R) (num_b : nat) (v a : R) : C * C :=
  (RtoC (a * vph), Cdiv (RtoC (a * vph)) (ac_current J idc ikk vph a num_b v)).

(** Strictly increasing from a to b. *)
Definition increasing_on (f : R -> R) (a b : R) : Prop := forall x y, a <= x -> x < y -> y <= b -> f x < f y.

(** ** Keyword arguments *)
(** A fresh interpreter: only the package defaults exist. *)
Definition start {V} (params : dict V) : state V := ([params], []).
Definition run {V} (is_none : V -> bool) (s : state V) (acts : list (action V)) : state V := fold_left (act V is_none) acts s.
(** The value that object n has for keyword k, if there is such an object and keyword. *)
Definition kwarg {V} (s : state V) (n : nat) (k : string) : option V :=
  match nth_error (snd s) n with Some o => dget V (hget V (fst s) o) k | None => None end.
(** The value of an override, and otherwise the default. *)
Definition own_or_default {V} (params kw : dict V) (k : string) : option V :=
  match dget V kw k with Some v => Some v | None => dget V params k end.
(** The program does not itself change the keyword arguments of object n. *)
Definition leaves {V} (n : nat) (a : action V) : Prop := forall k v, a <> SetKwarg V n k v.
