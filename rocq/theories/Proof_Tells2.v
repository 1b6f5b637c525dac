(** A junction whose samples tell the resistance of its circuit. *)
From Coq Require Import List ZArith Lia Bool Arith Reals Lra Psatz.
From Coquelicot Require Import Coquelicot.
From Verif Require Import Base Sums Bessel Float NumPy Model_CleanData Model_QtCurrent Spec_QtCurrent Spec_Power Proof_Bessel Proof_BesselVal
  Model_Tucker Model_ExpData Spec_ExpData Spec_Known Spec_Rise Proof_Rise Proof_Rise2 Spec_Noisy.
Import ListNotations.
Open Scope list_scope.
Open Scope R_scope.
Local Notation length := List.length.

(** The weights of one photon and of more photons in the AC current. *)
Definition w1 (a : R) : R := 2 / a * besselJ 1 a ^ 2.
Definition w2 (a : R) : R := 2 / a * (2 * besselJ 2 a ^ 2 + 3 * besselJ 3 a ^ 2 + 4 * besselJ 4 a ^ 2).
Definition top : R := 6 / 5 / (w1 (4 / 5) + w2 (4 / 5)).
Definition mid : R := (11 / 10 - w2 (9 / 10) * top) / w1 (9 / 10).
Definition low : R := (1 - w2 1 * top) / w1 1.
Definition three_idc (w : R) : R := if Rlt_dec w 1 then 0 else if Rlt_dec w (145 / 100) then low else if Rlt_dec w (155 / 100) then mid else top.

Lemma w1_bounds a : 0 < a <= 1 -> let h := a / 2 in h * (1 - h ^ 2 / 2) ^ 2 <= w1 a <= h * (1 - h ^ 2 / 2 + (h ^ 2) ^ 2 / 12) ^ 2.
Proof.
  intros A h. assert (E : w1 a = h * P 1 (h ^ 2) ^ 2) by (unfold w1, h; rewrite J_P; field; lra). rewrite E.
  assert (U : 0 <= h ^ 2 <= 81 / 64) by (unfold h; apply small_u; lra). assert (U1 : h ^ 2 <= 1 / 4) by (unfold h; nra). assert (L := P1_lower' _ U). assert (G := P1_upper _ U).
  assert (H0 : 0 <= h) by (unfold h; lra). split; apply Rmult_le_compat_l; try exact H0; apply pow_incr; lra.
Qed.
Lemma w2_bounds a : 0 < a <= 1 -> let h := a / 2 in 2 * h ^ 3 * (1 / 2 - h ^ 2 / 6) ^ 2 <= w2 a <= 2 * h ^ 3 * (1 / 4) + 3 * h ^ 5 * (1 / 36) + 4 * h ^ 7 * (1 / 576).
Proof.
  intros A h. assert (E : w2 a = 2 * h ^ 3 * P 2 (h ^ 2) ^ 2 + 3 * h ^ 5 * P 3 (h ^ 2) ^ 2 + 4 * h ^ 7 * P 4 (h ^ 2) ^ 2) by (unfold w2, h; rewrite !J_P; field; lra). rewrite E.
  assert (U : 0 <= h ^ 2 <= 81 / 64) by (unfold h; apply small_u; lra). assert (U1 : h ^ 2 <= 1 / 4) by (unfold h; nra). assert (L := P2_lower _ U).
  assert (G2 := P_le 2 _ U). assert (G3 := P_le 3 _ U). assert (G4 := P_le 4 _ U). assert (P3 := P_pos 3 _ U). assert (P4 := P_pos 4 _ U). replace (INR (fact 2)) with 2 in G2 by (cbn; lra). replace (INR (fact 3)) with 6 in G3 by (cbn; lra). replace (INR (fact 4)) with 24 in G4 by (cbn; lra).
  assert (H0 : 0 <= h) by (unfold h; lra). assert (H3 := pow_le h 3 H0). assert (H5 := pow_le h 5 H0). assert (H7 := pow_le h 7 H0).
  assert (S2 : (1 / 2 - h ^ 2 / 6) ^ 2 <= P 2 (h ^ 2) ^ 2 <= 1 / 4) by (split; [apply pow_incr; lra|replace (1 / 4) with ((/ 2) ^ 2) by field; apply pow_incr; lra]).
  assert (S3 : 0 <= P 3 (h ^ 2) ^ 2 <= 1 / 36) by (split; [apply pow2_ge_0|replace (1 / 36) with ((/ 6) ^ 2) by field; apply pow_incr; lra]).
  assert (S4 : 0 <= P 4 (h ^ 2) ^ 2 <= 1 / 576) by (split; [apply pow2_ge_0|replace (1 / 576) with ((/ 24) ^ 2) by field; apply pow_incr; lra]).
  set (p2 := P 2 (h ^ 2) ^ 2) in *. set (p3 := P 3 (h ^ 2) ^ 2) in *. set (p4 := P 4 (h ^ 2) ^ 2) in *.
  assert (0 <= 3 * h ^ 5 * p3) by (apply Rmult_le_pos; lra). assert (0 <= 4 * h ^ 7 * p4) by (apply Rmult_le_pos; lra).
  assert (2 * h ^ 3 * (1 / 2 - h ^ 2 / 6) ^ 2 <= 2 * h ^ 3 * p2) by (apply Rmult_le_compat_l; lra). assert (2 * h ^ 3 * p2 <= 2 * h ^ 3 * (1 / 4)) by (apply Rmult_le_compat_l; lra). assert (3 * h ^ 5 * p3 <= 3 * h ^ 5 * (1 / 36)) by (apply Rmult_le_compat_l; lra). assert (4 * h ^ 7 * p4 <= 4 * h ^ 7 * (1 / 576)) by (apply Rmult_le_compat_l; lra). lra.
Qed.
Lemma quot_between x y a b c d : 0 < c -> c <= y <= d -> 0 <= a -> a <= x <= b -> a / d <= x / y <= b / c.
Proof.
  intros C Y A X. assert (Y0 : 0 < y) by lra. assert (I0 : 0 < / d) by (apply Rinv_0_lt_compat; lra). assert (I1 : / d <= / y) by (apply Rinv_le_contravar; lra). assert (I2 : / y <= / c) by (apply Rinv_le_contravar; lra).
  unfold Rdiv. split; apply Rmult_le_compat; lra.
Qed.
Lemma w_values : (338 / 1000 <= w1 (4 / 5) <= 341 / 1000 /\ 28 / 1000 <= w2 (4 / 5) <= 33 / 1000) /\ (363 / 1000 <= w1 (9 / 10) <= 367 / 1000 /\ 39 / 1000 <= w2 (9 / 10) <= 48 / 1000) /\ (382 / 1000 <= w1 1 <= 388 / 1000 /\ 52 / 1000 <= w2 1 <= 66 / 1000).
Proof.
  assert (A := w1_bounds (4 / 5) ltac:(lra)). assert (B := w2_bounds (4 / 5) ltac:(lra)). assert (A' := w1_bounds (9 / 10) ltac:(lra)). assert (B' := w2_bounds (9 / 10) ltac:(lra)). assert (A2 := w1_bounds 1 ltac:(lra)). assert (B2 := w2_bounds 1 ltac:(lra)). cbv zeta in *. lra.
Qed.
Lemma levels : 32 / 10 <= top <= 33 / 10 /\ 25 / 10 <= mid <= 27 / 10 /\ 2 <= low <= 22 / 10.
Proof.
  destruct w_values as ((A & B) & (A' & B') & (A2 & B2)).
  assert (T : 32 / 10 <= top <= 33 / 10). { assert (Q := quot_between (6 / 5) (w1 (4 / 5) + w2 (4 / 5)) (6 / 5) (6 / 5) (366 / 1000) (374 / 1000) ltac:(lra) ltac:(lra) ltac:(lra) ltac:(lra)). fold top in Q. lra. }
  split; [exact T|]. split.
  - assert (X : 39 / 1000 * (32 / 10) <= w2 (9 / 10) * top <= 48 / 1000 * (33 / 10)) by (split; apply Rmult_le_compat; lra). assert (Q := quot_between (11 / 10 - w2 (9 / 10) * top) (w1 (9 / 10)) (94 / 100) (976 / 1000) (363 / 1000) (367 / 1000) ltac:(lra) ltac:(lra) ltac:(lra) ltac:(lra)). fold mid in Q. lra.
  - assert (X : 52 / 1000 * (32 / 10) <= w2 1 * top <= 66 / 1000 * (33 / 10)) by (split; apply Rmult_le_compat; lra). assert (Q := quot_between (1 - w2 1 * top) (w1 1) (782 / 1000) (834 / 1000) (382 / 1000) (388 / 1000) ltac:(lra) ltac:(lra) ltac:(lra) ltac:(lra)). fold low in Q. lra.
Qed.
Lemma three_below w : w < 1 -> three_idc w = 0.
Proof. intros H. unfold three_idc. destruct Rlt_dec; [reflexivity|lra]. Qed.
Lemma three_above w : 155 / 100 <= w -> three_idc w = top.
Proof. intros H. unfold three_idc. repeat destruct Rlt_dec; lra. Qed.
Lemma three_mono x y : x <= y -> three_idc x <= three_idc y.
Proof. destruct levels as (A & B & C). intros H. unfold three_idc. repeat destruct Rlt_dec; lra. Qed.
Lemma three_range w : 0 <= three_idc w <= 4.
Proof. destruct levels as (A & B & C). unfold three_idc. repeat destruct Rlt_dec; lra. Qed.
Section At.
Variable v : R.
Hypothesis V1 : 4 / 10 <= v <= 6 / 10.
Lemma three_pairs : pair three_idc 1 v 0 = 0 /\ pair three_idc 1 v 1 = three_idc (v + 1) /\ pair three_idc 1 v 2 = top /\ pair three_idc 1 v 3 = top /\ pair three_idc 1 v 4 = top.
Proof.
  unfold pair. cbn [INR]. rewrite (three_below (v + 0 * 1)), (three_below (v - 0 * 1)), (three_below (v - 1 * 1)), (three_below (v - (1 + 1) * 1)), (three_below (v - (1 + 1 + 1) * 1)), (three_below (v - (1 + 1 + 1 + 1) * 1)), (three_above (v + (1 + 1) * 1)), (three_above (v + (1 + 1 + 1) * 1)), (three_above (v + (1 + 1 + 1 + 1) * 1)) by lra. replace (v + 1 * 1) with (v + 1) by ring. repeat split; ring.
Qed.
Lemma three_first : low <= three_idc (v + 1) <= top.
Proof. destruct levels as (A & B & C). unfold three_idc. repeat destruct Rlt_dec; lra. Qed.
Lemma three_step : first_step three_idc 1 4 v /\ 2 <= gain three_idc 1 v 0.
Proof.
  destruct three_pairs as (E0 & E1 & E2 & E3 & E4). destruct levels as (A & B & C). assert (F := three_first). unfold first_step, sum_to, gain. cbn [seq map fold_right Nat.sub]. rewrite E0, E1, E2, E3, E4. set (f := three_idc (v + 1)) in *. split; [|lra]. split; [lra|].
  rewrite (Rmax_right 0 (top - f)), (Rmax_right 0 (top - top)), (Rmax_left 0 (- (top - f))), (Rmax_left 0 (- (top - top))), (Rabs_pos_eq top) by lra. split; [lra|].
  unfold weight. replace (INR (fact 1)) with 1 by (cbn; lra). replace (INR (fact 2)) with 2 by (cbn; lra). replace (INR (fact 3)) with 6 by (cbn; lra). replace (INR (fact 4)) with 24 by (cbn; lra). replace (INR (fact 5)) with 120 by (cbn; lra). lra.
Qed.
Lemma three_rf a : 0 < a -> rf_current three_idc (fun _ => 0) 1 4 v a = RtoC (w1 a * three_idc (v + 1) + w2 a * top).
Proof.
  intros A. unfold rf_current, RtoC, zsum. change (sym 4) with [-4; -3; -2; -1; 0; 1; 2; 3; 4]%Z. cbn [map fold_right]. f_equal; [|ring].
  rewrite (three_below (v + -4 * 1)), (three_below (v + -3 * 1)), (three_below (v + -2 * 1)), (three_below (v + -1 * 1)), (three_below (v + 0 * 1)), (three_above (v + 2 * 1)), (three_above (v + 3 * 1)), (three_above (v + 4 * 1)) by lra. replace (v + 1 * 1) with (v + 1) by ring.
  change (besselZ besselJ 1 a) with (besselJ 1 a). change (besselZ besselJ 2 a) with (besselJ 2 a). change (besselZ besselJ 3 a) with (besselJ 3 a). change (besselZ besselJ 4 a) with (besselJ 4 a).
  change (besselZ besselJ (1 - 1) a) with (besselJ 0 a). change (besselZ besselJ (1 + 1) a) with (besselJ 2 a). change (besselZ besselJ (2 - 1) a) with (besselJ 1 a). change (besselZ besselJ (2 + 1) a) with (besselJ 3 a). change (besselZ besselJ (3 - 1) a) with (besselJ 2 a). change (besselZ besselJ (3 + 1) a) with (besselJ 4 a). change (besselZ besselJ (4 - 1) a) with (besselJ 3 a). change (besselZ besselJ (4 + 1) a) with (besselJ 5 a).
  assert (D : forall n, besselJ n a + besselJ (S (S n)) a = 2 / a * (INR (S n) * besselJ (S n) a)) by (intros n; apply Rmult_eq_reg_l with a; [rewrite J_rec; field; lra|lra]).
  rewrite (D 0%nat), (D 1%nat), (D 2%nat), (D 3%nat). unfold w1, w2. cbn [INR]. ring.
Qed.
Lemma three_bounded : bounded_steps three_idc (fun _ => 0) 1 4 4 v.
Proof. intros n Hn. split; [|rewrite Rabs_R0; lra]. destruct (three_range (v + IZR n * 1)). rewrite Rabs_pos_eq by assumption. lra. Qed.
End At.
Lemma three_currents : rf_current three_idc (fun _ => 0) 1 4 (4 / 10) 1 = RtoC 1 /\ rf_current three_idc (fun _ => 0) 1 4 (5 / 10) (9 / 10) = RtoC (11 / 10) /\ rf_current three_idc (fun _ => 0) 1 4 (6 / 10) (8 / 10) = RtoC (12 / 10).
Proof.
  destruct w_values as ((A & B) & (A' & B') & (A2 & B2)). rewrite !three_rf by lra.
  replace (three_idc (4 / 10 + 1)) with low by (unfold three_idc; repeat destruct Rlt_dec; lra). replace (three_idc (5 / 10 + 1)) with mid by (unfold three_idc; repeat destruct Rlt_dec; lra). replace (three_idc (6 / 10 + 1)) with top by (unfold three_idc; repeat destruct Rlt_dec; lra).
  split; [f_equal; unfold low; field; lra|]. split; [f_equal; unfold mid; field; lra|]. f_equal. replace (8 / 10) with (4 / 5) by field. unfold top. field. lra.
Qed.
