(** Properties C60-C62 and C87: cleaning x-y data (vocabulary in Spec_CleanData.v, numbers
    with infinities and NaN in Float.v).  argsort is any algorithm that sorts. *)
From Coq Require Import List ZArith Bool Lia Reals Lra.
From Verif Require Import Base Float Spec_CleanData Model_CleanData Proof_CleanData.
Import ListNotations.

(** ** C60 *)
Theorem C60_cleaned : forall argsort x y x' y', sorting argsort -> clean_xy argsort x y = Ok (x', y') ->
  length x' = length y' /\ Forall number x' /\ Forall number y' /\ increasing x' /\
  (forall a b, point x' y' a b -> point x y a b) /\
  (forall a b, point x y a b -> number a -> number b -> exists b', point x' y' a b').
Proof. exact clean_props. Qed.
Print Assumptions C60_cleaned.

(** Cleaning again changes nothing if two points are left. *)
Theorem C60_again_partial : forall argsort argsort' x y x' y', sorting argsort -> sorting argsort' ->
  clean_xy argsort x y = Ok (x', y') -> (2 <= length x')%nat -> clean_xy argsort' x' y' = Ok (x', y').
Proof. exact clean_twice. Qed.
Print Assumptions C60_again_partial.

(** Missing: a single point that is left cannot be cleaned again. *)
Theorem C60_refuted : forall argsort, sorting argsort ->
  clean_xy argsort [FV 1; FV 1] [FV 5; FV 5] = Ok ([FV 1], [FV 5]) /\ clean_xy argsort [FV 1] [FV 5] = Err ValueError.
Proof. exact again_fails. Qed.
Print Assumptions C60_refuted.

(** The x values do not depend on the sorting algorithm; the y values neither unless x
    values are repeated. *)
Theorem C60_any_algorithm : forall s1 s2 x y, sorting s1 -> sorting s2 ->
  match clean_xy s1 x y, clean_xy s2 x y with
  | Ok (x1, y1), Ok (x2, y2) => x1 = x2 /\ (NoDup x -> y1 = y2)
  | Err e1, Err e2 => e1 = e2
  | _, _ => False
  end.
Proof. exact two_sortings. Qed.
Print Assumptions C60_any_algorithm.

Example C60_case : sorting insertion_argsort /\
  exists r, clean_xy insertion_argsort [FV 3; FNaN; FPInf; FV 1; FV 3] [FV 1; FV 1; FV 2; FV 0; FV 7] = Ok r.
Proof.
  split; [exact insertion_sorts|]. apply (proj1 (clean_accepts insertion_argsort [FV 3; FNaN; FPInf; FV 1; FV 3] [FV 1; FV 1; FV 2; FV 0; FV 7] insertion_sorts eq_refl)).
  unfold points_at. simpl. lia.
Qed.

(** ** C61 *)
Theorem C61_matrix : forall argsort x y, sorting argsort -> length x = length y ->
  (let* m := xy_to_matrix x y in clean_matrix argsort m) = (let* p := clean_xy argsort x y in xy_to_matrix (fst p) (snd p)).
Proof. exact clean_matrix_eq. Qed.
Print Assumptions C61_matrix.

Theorem C61_conversion : forall x y m,
  (xy_to_matrix x y = Ok m -> matrix_to_xy m = Ok (x, y)) /\
  (forall argsort, ncols m <> 2%nat -> clean_matrix argsort m = Err AssertionError).
Proof. exact (fun x y m => conj (to_from x y m) (fun s => matrix_cols s m)). Qed.
Print Assumptions C61_conversion.

(** ** C62 *)
(** Cleaning succeeds iff there are two points without NaN, and not two at the same
    infinite x. *)
Theorem C62_succeeds_partial : forall argsort x y, sorting argsort -> length x = length y ->
  let n := length (good_points x y) in
  ((exists r, clean_xy argsort x y = Ok r) <-> (2 <= n)%nat /\ (points_at x y FPInf <= 1)%nat /\ (points_at x y FNInf <= 1)%nat) /\
  ((n < 2)%nat <-> clean_xy argsort x y = Err ValueError) /\
  ((2 <= n)%nat -> (points_at x y FPInf >= 2)%nat \/ (points_at x y FNInf >= 2)%nat -> clean_xy argsort x y = Err AssertionError).
Proof. exact clean_accepts. Qed.
Print Assumptions C62_succeeds_partial.

Theorem C62_refuted : forall argsort, sorting argsort ->
  clean_xy argsort [FV 1] [FV 5] = Err ValueError /\
  clean_xy argsort [FV 0; FPInf; FPInf] [FV 0; FV 1; FV 1] = Err AssertionError.
Proof. exact (fun s S => conj (proj2 (again_fails s S)) (infinite_fails s S)). Qed.
Print Assumptions C62_refuted.

(** ** C87 *)
(** Sorting a matrix without NaN by any column and removing the doubles of that column,
    without the check, leaves that column strictly increasing. *)
Theorem C87_unchecked_partial : forall argsort m c j m1 m2, sorting argsort -> pyidx (ncols m) c = Some j ->
  Forall (fun r => number (nth j r FNaN)) (rows m) ->
  sort_matrix argsort m c = Ok m1 -> remove_doubles_matrix m1 c false = Ok m2 ->
  increasing (map (fun r => nth j r FNaN) (rows m2)) /\ (forall r, In r (rows m2) -> In r (rows m)).
Proof. exact sort_dedupe. Qed.
Print Assumptions C87_unchecked_partial.

(** Removing doubles from column 1 of a matrix sorted by column 1 fails: the check looks at
    column 0. *)
Theorem C87_refuted : forall argsort, sorting argsort -> let m := {| ncols := 2; rows := [[FV 2; FV 1]; [FV 1; FV 2]] |} in
  sort_matrix argsort m 1 = Ok m /\ remove_doubles_matrix m 1 true = Err AssertionError /\ remove_doubles_matrix m 1 false = Ok m.
Proof. exact other_column. Qed.
Print Assumptions C87_refuted.
