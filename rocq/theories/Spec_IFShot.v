(** Specification vocabulary for the range that the shot-noise line is fitted to if none is
    given. *)
From Coq Require Import List ZArith Bool Reals Permutation.
From Verif Require Import Base Float NumPy Spec_IVData Spec_IFData Model_MathFn.
Import ListNotations.
Open Scope R_scope.
Local Notation length := List.length.

(** Smoothing with a window of w points. *)
Definition keeps_length (smooth : list R -> Z -> Z -> list R) : Prop := forall l w o, length (smooth l w o) = length l.
(** Where all samples that may be in the window lie on a line, the value is unchanged. *)
Definition follows_lines (smooth : list R -> Z -> Z -> list R) : Prop := forall l w k a b, (1 <= w <= Z.of_nat (length l))%Z -> (k < length l)%nat ->
  (forall i, (i < length l)%nat -> (Z.abs (Z.of_nat i - Z.of_nat k) < w)%Z -> nth i l 0 = a * INR i + b) -> nth k (smooth l w 3%Z) 0 = a * INR k + b.

(** The value in the middle of the sorted values; of an even number, the average of the two. *)
Definition middle_value (l : list R) (m : R) : Prop := exists s, Permutation s l /\ (forall i j, (i <= j < length s)%nat -> nth i s 0 <= nth j s 0) /\
  m = (nth ((length s - 1) / 2) s 0 + nth (length s / 2) s 0) / 2.

(** d1, d2: the slope of y over x and the size of the slope of d1.  Slopes are taken over 11
    points by slope_span_n (C52, C53); y is smoothed before, both slopes after. *)
Definition derivatives (smooth : list R -> Z -> Z -> list R) (x y d1 d2 : list R) : Prop := exists s1 s2,
  slope_span_n x (smooth y 21%Z 3%Z) 11 true = Ok (map FV s1) /\ d1 = smooth s1 51%Z 3%Z /\
  slope_span_n x d1 11 true = Ok (map FV s2) /\ d2 = smooth (map Rabs s2) 51%Z 3%Z.
(** Sample k lies above 1.7 gap voltages, and the slope changes a hundred times less than at
    some other sample. *)
Definition flat (x d2 : list R) (k : nat) : Prop := (k < length x)%nat /\ 17 / 10 < nth k x 0 /\ exists j, (j < length d2)%nat /\ Rabs (nth k d2 0) < Rabs (nth j d2 0) / 100.
(** The middle one of the slopes at those samples. *)
Definition typical_slope (x d1 d2 : list R) (m : R) : Prop := exists ks, NoDup ks /\ (forall k, In k ks <-> flat x d2 k) /\ middle_value (map (fun k => nth k d1 0) ks) m.
(** The slope at sample k is positive and less than twice the typical one. *)
Definition similar (x d1 d2 : list R) (m : R) (k : nat) : Prop := flat x d2 k /\ 0 < nth k d1 0 < 2 * m.
(** The samples that the line is fitted to: those whose slope is similar and whose next one's
    slope is, too; or the ones above 2 gap voltages if there are fewer than five. *)
Definition found_samples (x y d1 d2 : list R) (P : list (R * R)) : Prop := exists m ks, typical_slope x d1 d2 m /\ NoDup ks /\
  (forall k, In k ks <-> similar x d1 d2 m k /\ similar x d1 d2 m (S k)) /\
  P = if (length ks <? 5)%nat then filter (fun p => if Rlt_dec 2 (fst p) then true else false) (List.combine x y) else map (fun k => (nth k x 0, nth k y 0)) ks.
