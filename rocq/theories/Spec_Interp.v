(** Vocabulary for interpolations through data points. *)
From Coq Require Import List ZArith Reals.
From Coquelicot Require Import Coquelicot.
From Verif Require Import Spec_RespFn.
Open Scope R_scope.

(** The interpolation s x y k takes the values y at the points x. *)
Definition interpolating (s : list R -> list R -> Z -> R -> R) : Prop :=
  forall x y k j, increasing x -> List.length y = List.length x -> (1 <= k <= 5)%Z -> (k < Z.of_nat (List.length x))%Z -> (j < List.length x)%nat -> s x y k (nth j x 0) = nth j y 0.
(** The interpolation d is the derivative of s. *)
Definition derivative_of (s d : list R -> list R -> Z -> R -> R) : Prop := forall x y k t, d x y k t = Derive (s x y k) t.
