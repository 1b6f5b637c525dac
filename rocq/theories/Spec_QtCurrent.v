(** Specification of the tunnelling current, for any number of tones, written
    independently of the loop nests in qtcurrent.py.

    References: Kittara's thesis, eqns 5.5, 5.7, 5.12, 5.25, 5.26 (cited in the
    code).  Everything is at one bias point. *)
From Coq Require Import List ZArith Bool Reals.
From Coquelicot Require Import Complex.
From Verif Require Import Base Sums Round.
Import ListNotations.
Open Scope C_scope.

(** ** Phase-factor coefficients of one tone *)

(** Bessel functions of integer order from those of order >= 0:
    J_{-n}(x) = (-1)^n J_n(x). *)
Definition besselZ (J : nat -> R -> R) (n : Z) (x : R) : R :=
  if (n <? 0)%Z then ((-1) ^ Z.to_nat (- n) * J (Z.to_nat (- n)) x)%R else J (Z.to_nat n) x.

Definition cis (t : R) : C := (cos t, sin t).

(** Jacobi-Anger coefficient of one harmonic with drive level [alpha] and phase
    [phi] (eqn 5.7). *)
Definition jacobi_anger (J : nat -> R -> R) (alpha phi : R) (n : Z) : C :=
  RtoC (besselZ J n alpha) * cis (- (IZR n * phi)).

(** Value at [k] if |k| <= b, otherwise 0. *)
Definition cut (b : nat) (f : Z -> C) (k : Z) : C :=
  if (Z.abs k <=? Z.of_nat b)%Z then f k else 0c.

(** Coefficients after including harmonics 1..p (eqn 5.12).  [A q n] is the
    coefficient of harmonic q; sums over n keep |n| <= b (this tone's num_b), and
    intermediate coefficients are kept for |k| <= B (the largest num_b). *)
Fixpoint phase_factor (B b : nat) (A : nat -> Z -> C) (p : nat) : Z -> C :=
  match p with
  | O => fun k => if (k =? 0)%Z then 1c else 0c
  | S O => cut b (A 1%nat)
  | S p' => fun k => csum (sym b) (fun l => cut B (phase_factor B b A p') (k - Z.of_nat p * l)%Z * A p l)
  end.

(** ** Current *)

(** One tone as the current formula sees it: its truncation and coefficients. *)
Record tone := Tone { t_b : nat; t_C : Z -> C }.

(** R + j S of eqn 5.25 for index vector [a]; [rk] gives the response function at
    bias + sum k_f * freq_f for the index vector k. *)
Fixpoint rs_sum (ts : list tone) (a : list Z) (rk : list Z -> C) : C :=
  match ts, a with
  | t :: ts', a0 :: a' =>
      csum (sym (t_b t)) (fun k =>
        t_C t k * Cconj (cut (t_b t) (t_C t) (k + a0)%Z) * rs_sum ts' a' (fun ks => rk (k :: ks)))
  | _, _ => rk []
  end.

(** Current coefficient I(a), eqn 5.26. *)
Definition coeff (ts : list tone) (a : list Z) (rk : list Z -> C) : C :=
  let p := rs_sum ts a rk in
  let m := rs_sum ts (map Z.opp a) rk in
  if forallb (fun x => x =? 0)%Z a then RtoC (Im p)
  else ((Im p + Im m)%R, (- (Re p - Re m))%R).

(** All index vectors of length n with entries in [-P, P]. *)
Fixpoint index_vectors (P n : nat) : list (list Z) :=
  match n with
  | O => [[]]
  | S n' => flat_map (fun a0 => map (cons a0) (index_vectors P n')) (sym P)
  end.

(** sum of a_f * freq_f *)
Fixpoint dot (a : list Z) (fs : list R) : R :=
  match a, fs with
  | a0 :: a', f0 :: fs' => (IZR a0 * f0 + dot a' fs')%R
  | _, _ => 0%R
  end.

Definition same_freq (x y : R) : bool := if Req_EM_T (round4 x) (round4 y) then true else false.

(** The current at frequency [w]: all products whose frequency rounds like [w]. *)
Definition current (P : nat) (ts : list tone) (fs : list R) (vb : R) (resp : R -> C) (w : R) : C :=
  csum (index_vectors P (length ts)) (fun a =>
    if same_freq (dot a fs) w then coeff ts a (fun ks => resp (vb + dot ks fs)%R) else 0c).

(** ** The whole simulation at bias point [i] *)

(** Tone number [f] (from 1) of a simulation with [P] harmonics, given voltages
    [vj f p i], normalised frequencies [freq f] and truncations. [arg] is the
    phase of a complex number. *)
Definition tone_of (J : nat -> R -> R) (arg : C -> R) (vj : nat -> nat -> nat -> C) (freq : nat -> R)
  (P B b : nat) (f i : nat) : tone :=
  Tone b (phase_factor B b
            (fun p n => jacobi_anger J (Cmod (vj f p i) / (INR p * freq f)) (arg (vj f p i)) n) P).
