(** Vocabulary for the properties of harmonic_balance that compare several runs. *)
From Coq Require Import List ZArith Reals Permutation.
From Coquelicot Require Import Complex.
From Verif Require Import Base Sums Model_QtCurrent Spec_QtCurrent Spec_QtApi Model_HB Spec_HB.
Import ListNotations.
Open Scope C_scope.

(** The mean power that a current flowing into a voltage delivers. *)
Definition mean_power (v i : C) : R := (Re (v * Cconj i)%C / 2)%R.

(** np.linalg.inv looks at nothing but the n x n entries. *)
Definition reads_entries (inv : nat -> (nat -> nat -> R) -> option (nat -> nat -> R)) : Prop :=
  forall n M M', (forall a b, (a < n)%nat -> (b < n)%nat -> M a b = M' a b) -> inv n M = inv n M'.

(** The circuit c' is c with bias point i taken from bias point phi i of c: some of the points,
    in any order, possibly repeated. *)
Definition picks (phi : nat -> nat) (c c' : hcct) : Prop :=
  q_num_f (h_q c') = q_num_f (h_q c) /\ q_num_p (h_q c') = q_num_p (h_q c) /\
  (forall f, q_freq (h_q c') f = q_freq (h_q c) f) /\
  (forall i, (i < q_npts (h_q c'))%nat -> (phi i < q_npts (h_q c))%nat /\ q_vb (h_q c') i = q_vb (h_q c) (phi i)) /\
  (forall f p, h_vt c' f p = h_vt c f p) /\ (forall f p, h_zt c' f p = h_zt c f p) /\ h_wvt c' = h_wvt c.
(** The same for the initial guesses. *)
Definition picks_guess (phi : nat -> nat) (q' : qcct) (g g' : option arr3) : Prop :=
  match g, g' with
  | Some a, Some a' => everywhere q' (fun f p i => a' f p i = a f p (phi i))
  | None, None => True
  | _, _ => False
  end.

(** The index vector of harmonic p of tone f, and the frequency of that harmonic far from those
    of all other mixing products: by more than the rounding step, 1e-4. *)
Definition harmonic_of (q : qcct) (f p : nat) : list Z := map (fun g => if (g =? f)%nat then Z.of_nat p else 0%Z) (seq 1 (q_num_f q)).
Definition separated (q : qcct) : Prop :=
  forall f p a, signal q f p -> In a (index_vectors (q_num_p q) (q_num_f q)) -> a <> harmonic_of q f p ->
  (11 / 100000 <= Rabs (dot a (freqs q) - q_freq q f * INR p))%R.
(** Sizes for which binary64 is precise enough. *)
Definition moderate_size (q : qcct) (num_b : numb) : Prop :=
  (Z.of_nat (q_num_p q) < 2 ^ 50)%Z /\ (Z.of_nat (list_max (nbtuple num_b (q_num_f q))) < 2 ^ 50)%Z /\
  (forall f, (1 <= f <= q_num_f q)%nat -> (INR (q_num_p q) * Rabs (q_freq q f) <= 100000)%R).

(** New numbers for the tones (1 .. num_f; the rows 0 of the arrays stay): tone f of the
    relabelled simulation is tone sigma f. *)
Definition relabels (sigma : nat -> nat) (num_f : nat) : Prop := sigma 0%nat = 0%nat /\ Permutation (map sigma (seq 1 num_f)) (seq 1 num_f).
Definition relabel_circuit (sigma : nat -> nat) (c : hcct) : hcct :=
  {| h_q := permute_cct sigma (h_q c); h_vt := fun f => h_vt c (sigma f); h_zt := fun f => h_zt c (sigma f); h_wvt := h_wvt c |}.
Definition relabel_guess (sigma : nat -> nat) (g : option arr3) : option arr3 := option_map (fun a f => a (sigma f)) g.
(** A tuple of truncations has one entry per tone. *)
Definition one_per_tone (num_f : nat) (num_b : numb) : Prop := match num_b with NbInt _ => True | NbTuple l => List.length l = num_f end.
