(** Property C169: arrays of different length. *)
From Coq Require Import List ZArith Lia Bool Arith Reals Lra.
From Verif Require Import Base Float NumPy Model_MathFn Model_CleanData Spec_CleanData Proof_CleanData Proof_Lengths.
Import ListNotations.
Open Scope R_scope.

(** The derivatives refuse them if there are enough points ... *)
Theorem C169_derivatives : forall x y, length x <> length y ->
  ((4 <= length x)%nat -> (4 <= length y)%nat -> slope x y = Err ValueError) /\
  (forall n nozeros, (n mod 2 = 1)%Z -> (1 <= n)%Z -> (n + 2 <= Z.of_nat (length x))%Z -> (n + 2 <= Z.of_nat (length y))%Z -> slope_span_n x y n nozeros = Err ValueError).
Proof. intros x y D. split; [now apply slope_differ|]. intros n nozeros. now apply span_differ. Qed.
Print Assumptions C169_derivatives.

(** ... but three values of y are accepted with any longer x: their overall rise is used at
    every point. *)
Theorem C169_three_values : forall x a b c, (4 <= length x)%nat -> exists d, slope x [a; b; c] = Ok d /\ length d = length x /\
  forall i, (1 <= i)%nat -> (i + 1 < length x)%nat -> nth i d (FV 0) = fdiv (FV (c - a)) (FV (nth (i + 1) x 0 - nth (i - 1) x 0)).
Proof. exact slope_three. Qed.
Print Assumptions C169_three_values.

(** Removing NaNs or doubles refuses them; sorting refuses a longer x, and drops the last values
    of a longer y. *)
Theorem C169_cleaning : forall argsort x y, sorting argsort -> length x <> length y ->
  (exists e, remove_nans_xy x y = Err e /\ (e = ValueError \/ e = IndexError)) /\
  (forall check r, remove_doubles_xy x y check <> Ok r) /\
  ((length y < length x)%nat -> sort_xy argsort x y = Err IndexError) /\
  ((length x < length y)%nat -> exists x' y', sort_xy argsort x y = Ok (x', y') /\ length x' = length x /\ length y' = length x).
Proof.
  intros argsort x y S D. split; [now apply nans_differ|]. split; [intros check r E; apply D; now apply doubles_differ in E|]. destruct (sort_differ argsort x y S) as [A B]. split; [exact A|]. intros L. apply B. lia.
Qed.
Print Assumptions C169_cleaning.

Example C169_case : slope [0; 1; 2; 3; 4] [0; 1; 4; 9] = Err ValueError /\
  (exists d, slope [0; 1; 2; 3; 4] [0; 1; 4] = Ok d /\ nth 3 d (FV 0) = FV 2) /\
  remove_nans_xy [FV 0; FNaN; FV 1] [FV 0; FV 2] = Err ValueError /\ sorting insertion_argsort.
Proof.
  split; [apply C169_derivatives; cbn [length]; lia|]. split.
  - destruct (C169_three_values [0; 1; 2; 3; 4] 0 1 4 ltac:(cbn [length]; lia)) as [d [E [_ H]]]. exists d. split; [exact E|]. rewrite (H 3%nat) by (cbn [length]; lia). cbn [nth Nat.add Nat.sub]. unfold fdiv.
    destruct (Proof_Circuit.Reqb_spec (4 - 2) 0); [lra|]. f_equal. field.
  - split; [reflexivity|exact insertion_sorts].
Qed.
