(** Specification vocabulary for cleaning x-y data. *)
From Coq Require Import List ZArith Bool Sorting Permutation Reals.
From Verif Require Import Base Float.
Import ListNotations.

(** a may stand before b in a sorted array: NaN goes last. *)
Definition before (a b : fl) : Prop := fle a b = true \/ fisnan b = true.
(** Any algorithm that returns positions in sorting order, whatever it does with ties. *)
Definition sorting (argsort : list fl -> list nat) : Prop :=
  forall l, Permutation (argsort l) (seq 0 (length l)) /\
            StronglySorted before (map (fun k => nth k l FNaN) (argsort l)).

Definition number (a : fl) : Prop := fisnan a = false.
Definition increasing (x : list fl) : Prop := StronglySorted (fun a b => flt a b = true) x.
(** (a, b) is one of the points of the data x, y. *)
Definition point (x y : list fl) (a b : fl) : Prop := exists k, nth_error x k = Some a /\ nth_error y k = Some b.

(** The points in which neither value is NaN. *)
Definition good_points (x y : list fl) : list (fl * fl) :=
  filter (fun p => negb (fisnan (fst p)) && negb (fisnan (snd p))) (List.combine x y).
(** How many of them lie at x = a. *)
Definition points_at (x y : list fl) (a : fl) : nat := length (filter (fun p => feq (fst p) a) (good_points x y)).
