(** Specification vocabulary for experimental I-V data. *)
From Coq Require Import List ZArith Bool Reals String.
From Verif Require Import Base Float NumPy Proof_NumPy Spec_CleanData.
Import ListNotations.
Open Scope R_scope.

(** Elementary charge and Planck constant. *)
Definition elementary_charge : R := 1602176634 / 10 ^ 28.
Definition planck : R := 662607015 / 10 ^ 42.

(** Factors of the voltage and current units. *)
Definition volts (unit : string) : option R :=
  if String.eqb unit "uV" then Some (/ 10 ^ 6) else if String.eqb unit "mV" then Some (/ 10 ^ 3)
  else if String.eqb unit "V" then Some 1 else None.
Definition amperes (unit : string) : option R :=
  if String.eqb unit "uA" then Some (/ 10 ^ 6) else if String.eqb unit "mA" then Some (/ 10 ^ 3)
  else if String.eqb unit "A" then Some 1 else None.

(** k is the first position of the smallest (largest) value. *)
Definition first_min (v : list fl) (k : nat) : Prop :=
  (k < List.length v)%nat /\ (forall j, (j < List.length v)%nat -> fle (nth k v FNaN) (nth j v FNaN) = true) /\
  (forall j, (j < k)%nat -> flt (nth k v FNaN) (nth j v FNaN) = true).
Definition first_max (v : list fl) (k : nat) : Prop :=
  (k < List.length v)%nat /\ (forall j, (j < List.length v)%nat -> fle (nth j v FNaN) (nth k v FNaN) = true) /\
  (forall j, (j < k)%nat -> flt (nth j v FNaN) (nth k v FNaN) = true).

(** From position a to position b the values increase (decrease) strictly. *)
Definition rises (v : list R) (a b : nat) : Prop := forall i j, (a <= i < j)%nat -> (j <= b)%nat -> nth i v 0 < nth j v 0.
Definition falls (v : list R) (a b : nat) : Prop := forall i j, (a <= i < j)%nat -> (j <= b)%nat -> nth j v 0 < nth i v 0.
(** The samples from position a to position b. *)
Definition samples {A} (l : list A) (a b : nat) : list A := firstn (b + 1 - a) (skipn a l).

(** The samples with lo < v < hi. *)
Definition samples_within (lo hi : R) (v i : list R) : list (R * R) :=
  filter (fun p => if Rlt_dec lo (fst p) then if Rlt_dec (fst p) hi then true else false else false) (List.combine v i).
(** The sum of the squared deviations of samples from the line a x + b. *)
Definition deviation (P : list (R * R)) (a b : R) : R :=
  fold_right Rplus 0 (map (fun p => (snd p - (a * fst p + b)) ^ 2) P).
(** a x + b is a least-squares line. *)
Definition best_line (P : list (R * R)) (a b : R) : Prop := forall a' b', deviation P a b <= deviation P a' b'.
(** Two samples have different x. *)
Definition spread (P : list (R * R)) : Prop := exists p q, In p P /\ In q P /\ fst p <> fst q.
(** All samples lie on the line. *)
Definition on_the_line (P : list (R * R)) (a b : R) : Prop := forall p, In p P -> snd p = a * fst p + b.

(** Measured samples as a matrix with two columns. *)
Definition measured (v i : list R) : list (list fl) := map (fun k => [FV (nth k v 0); FV (nth k i 0)]) (seq 0 (List.length v)).
(** The data x, y consist of the samples at the positions in P, in the given units. *)
Definition kept (P : nat -> Prop) (v i : list R) (uv ui : R) (x y : list fl) : Prop :=
  (forall p q, point x y p q -> exists k, P k /\ p = FV (nth k v 0 * uv) /\ q = FV (nth k i 0 * ui)) /\
  (forall k, P k -> In (FV (nth k v 0 * uv)) x).

(** The voltage c that is reported for a sample v, i measured through a series resistance
    rs: v - i rs; a negative static resistance counts as 0; a sample without current at a
    positive voltage becomes NaN. *)
Definition corrected (v i rs : R) (c : fl) : Prop :=
  (i <> 0 /\ 0 <= v / i /\ c = FV (v - i * rs)) \/ (i <> 0 /\ v / i < 0 /\ c = FV (- i * rs)) \/
  (i = 0 /\ v < 0 /\ c = FV 0) \/ (i = 0 /\ 0 < v /\ c = FNaN).
(** A sample other than (0, 0). *)
Definition nonzero (p : R * R) : bool := if Req_EM_T (fst p) 0 then if Req_EM_T (snd p) 0 then false else true else true.
(** There are voltages below and above the range. *)
Definition bipolar (range : R * R) (v : list R) : Prop := (exists a, In a v /\ a < fst range) /\ (exists a, In a v /\ snd range < a).
(** c is the value at t of the curve that joins the samples by straight lines and is left
    (right) beyond the first (last) sample. *)
Definition joined (x y : list R) (left right t c : R) : Prop :=
  let n := List.length x in
  (t < nth 0 x 0 -> c = left) /\ (nth (n - 1) x 0 < t -> c = right) /\
  (forall j, (j < n)%nat -> t = nth j x 0 -> c = nth j y 0) /\
  (forall j, (S j < n)%nat -> nth j x 0 <= t <= nth (S j) x 0 ->
     c = nth j y 0 + (nth (S j) y 0 - nth j y 0) * (t - nth j x 0) / (nth (S j) x 0 - nth j x 0)).
(** The curve x, y is the curve v, i without the voltage across the series resistance (samples
    at the origin are dropped). *)
Definition junction_curve (rseries : option R) (v i x y : list R) : Prop :=
  match rseries with
  | None => x = v /\ y = i
  | Some rs => List.length x = List.length y /\
      Forall2 (fun p q => corrected (fst p) (snd p) rs (FV (fst q)) /\ snd q = snd p) (filter nonzero (List.combine v i)) (List.combine x y)
  end.
