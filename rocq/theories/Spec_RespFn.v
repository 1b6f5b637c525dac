(** Specifications for the response function. *)
From Coq Require Import List ZArith Reals.
From Verif Require Import Base.
Import ListNotations.
Open Scope R_scope.

(** The values increase strictly. *)
Definition increasing (l : list R) : Prop :=
  forall i j, (i < j)%nat -> (j < List.length l)%nat -> nth i l 0 < nth j l 0.
(** The steps between neighbouring values lie between lo and hi. *)
Definition steps_between (lo hi : R) (l : list R) : Prop :=
  forall k, (S k < List.length l)%nat -> lo <= nth (S k) l 0 - nth k l 0 <= hi.
(** A strictly increasing list of integers. *)
Definition ascending (l : list Z) : Prop :=
  forall l1 a l2 b l3, l = l1 ++ a :: l2 ++ b :: l3 -> (a < b)%Z.
(** a and b are neighbours in the list. *)
Definition neighbours {A} (l : list A) (a b : A) : Prop := exists l1 l2, l = l1 ++ a :: b :: l2.

(** Voltages on which a response function can be built: at least 101, from 0 to more than 5,
    steps between 1/10000 and 1/15 that agree within a hundred-thousandth. *)
Definition usable_grid (v : list R) : Prop :=
  (101 <= List.length v)%nat /\ nth 0 v 0 = 0 /\ 5 < nth (List.length v - 1) v 0 /\ steps_between (1 / 10000) (1 / 15) v /\
  forall k, (S k < List.length v)%nat ->
    Rabs ((nth (List.length v - 1) v 0 - nth (List.length v - 2) v 0) - (nth (S k) v 0 - nth k v 0)) < / 10 ^ 5.
(** The steps of the voltages agree within a hundred-thousandth with the last one. *)
Definition evenly_spaced (v : list R) : Prop :=
  forall k, (S k < List.length v)%nat ->
    Rabs ((nth (List.length v - 1) v 0 - nth (List.length v - 2) v 0) - (nth (S k) v 0 - nth k v 0)) < / 10 ^ 5.
(** The straight line through (x0, y0) and (x1, y1), at x. *)
Definition chord (x0 y0 x1 y1 x : R) : R := y0 + (y1 - y0) * (x - x0) / (x1 - x0).
