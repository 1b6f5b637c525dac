(** Vocabulary for the convergence of harmonic_balance. *)
From Coq Require Import List ZArith Bool Reals.
From Coquelicot Require Import Complex.
From Verif Require Import Base Sums Round Model_QtCurrent Spec_QtCurrent Spec_QtApi Model_HB Spec_HB.
Import ListNotations.
Open Scope R_scope.

(** A sum over the signals of a circuit. *)
Definition total (q : qcct) (a : nat -> nat -> R) : R :=
  rsum_to (q_num_f q) (fun f => rsum_to (q_num_p q) (fun p => a (S f) (S p))).
(** How far two sets of junction voltages are apart at a bias point. *)
Definition distance (q : qcct) (v w : arr3) (i : nat) : R := total q (fun f p => Cmod (v f p i - w f p i)%C).
(** How far junction voltages are from balance. *)
Definition imbalance J c resp num_b (v : arr3) (i : nat) : R := total (h_q c) (fun f p => Cmod (residual_at J c resp num_b v f p i)%C).
(** The voltages across the embedding impedances follow the junction voltages with at most
    [k] of their change. *)
Definition follows J (c : hcct) resp num_b (k : R) : Prop := forall v w i, (i < q_npts (h_q c))%nat ->
  total (h_q c) (fun f p => Cmod (h_zt c f p * (current_at J (h_q c) resp num_b v f p i - current_at J (h_q c) resp num_b w f p i))%C) <= k * distance (h_q c) v w i.
(** The share of the imbalance that one correction damped by [d] leaves at most. *)
Definition left_over (k d : R) : R := 1 - d * (1 - 5 * k / (2 - 3 * k)).
(** The circuit with its source voltages raised to at least 1e-10. *)
Definition driven (c : hcct) : hcct := {| h_q := h_q c; h_vt := fun f p => source (h_vt c f p); h_zt := h_zt c; h_wvt := h_wvt c |}.
(** Junction voltages that balance the circuit exactly. *)
Definition solution J c resp num_b (v : arr3) : Prop := everywhere (h_q c) (fun f p i => residual_at J c resp num_b v f p i = RtoC 0).
(** A guess is given, or the default one can be computed. *)
Definition can_start (c : hcct) (vj_initial : option arr3) (zj_guess : C) : Prop :=
  vj_initial <> None \/ forall f p, signal (h_q c) f p -> (zj_guess + h_zt c f p)%C <> RtoC 0.
