(** Values of the Bessel functions used by concrete cases. *)
From Coq Require Import Reals Lra Lia Arith.
From Coquelicot Require Import Coquelicot.
From Verif Require Import Bessel Proof_Bessel.
Open Scope R_scope.

Lemma exp_upper : exp (9 / 16) < 16 / 9.
Proof.
  assert (H : exp (9 / 256) <= 256 / 247).
  { assert (L := exp_ineq1_le (- (9 / 256))). rewrite exp_Ropp in L. pose proof (exp_pos (9 / 256)). apply Rmult_le_reg_r with (/ exp (9 / 256)); [now apply Rinv_0_lt_compat|]. rewrite Rinv_r by lra. lra. }
  replace (9 / 16) with (16 * (9 / 256)) by field. replace (exp (16 * (9 / 256))) with (exp (9 / 256) ^ 16).
  - apply Rle_lt_trans with ((256 / 247) ^ 16). { apply pow_incr. split; [left; apply exp_pos|exact H]. } lra.
  - rewrite <- (Rmult_comm (9 / 256)). simpl pow. rewrite Rmult_1_r, <- !exp_plus. f_equal. ring.
Qed.
Lemma mvt_P n u : 0 < u -> exists c, 0 <= c <= u /\ P n u = P n 0 - P (S n) c * u.
Proof.
  intros U. destruct (MVT_gen (P n) 0 u (fun c => - P (S n) c)) as [c [Hc E]].
  - intros x _. apply P_derive.
  - intros x _. apply derivable_continuous_pt. exists (- P (S n) x). apply is_derive_Reals. apply P_derive.
  - rewrite Rmin_left, Rmax_right in Hc by lra. exists c. split; [exact Hc|]. lra.
Qed.
Lemma P_0 n : P n 0 = / INR (fact n).
Proof. unfold P. rewrite PSeries_0. unfold bessel_coef. rewrite Nat.add_0_r. simpl pow. change (INR (fact 0)) with 1. field. apply INR_fact_neq_0. Qed.
Lemma P1_lower c : 0 <= c <= 9 / 16 -> 1 / 2 < P 1 c.
Proof.
  intros H. destruct (Req_dec c 0) as [-> | N]. { rewrite P_0. cbn. lra. }
  destruct (mvt_P 1 c ltac:(lra)) as [d [Hd E]]. rewrite E, P_0. assert (B := P_bound 2 d ltac:(lra)). assert (exp d <= exp (9 / 16)). { destruct (Rle_lt_or_eq_dec d (9 / 16) ltac:(lra)) as [L | ->]; [left; now apply exp_increasing|lra]. }
  pose proof exp_upper. change (INR (fact 2)) with (1 + 1) in B. change (INR (fact 1)) with 1. assert (P 2 d < 8 / 9). { pose proof (Rle_abs (P 2 d)). lra. } pose proof (Rmult_lt_compat_r c (P 2 d) (8 / 9) ltac:(lra) H2). lra.
Qed.
Lemma J1_pos : 0 < besselJ 1 (3 / 2).
Proof. rewrite J_P. replace ((3 / 2 / 2) ^ 2) with (9 / 16) by field. assert (H := P1_lower (9 / 16) ltac:(lra)). simpl pow. lra. Qed.
Lemma J0_between : 0 < besselJ 0 (3 / 2) < 1.
Proof.
  rewrite J_P. replace ((3 / 2 / 2) ^ 2) with (9 / 16) by field. simpl pow. destruct (mvt_P 0 (9 / 16) ltac:(lra)) as [c [Hc E]]. rewrite E, P_0. change (INR (fact 0)) with 1.
  assert (L := P1_lower c Hc). assert (B := P_bound 1 c ltac:(lra)). change (INR (fact 1)) with 1 in B. assert (exp c <= exp (9 / 16)). { destruct (Rle_lt_or_eq_dec c (9 / 16) ltac:(lra)) as [L' | ->]; [left; now apply exp_increasing|lra]. }
  pose proof exp_upper. pose proof (Rle_abs (P 1 c)). lra.
Qed.
Lemma bessel_3_2 : besselJ 0 (3 / 2) <> 0 /\ besselJ 1 (3 / 2) <> 0 /\ besselJ 0 (3 / 2) ^ 2 <> 1.
Proof. pose proof J1_pos. pose proof J0_between. repeat split; [lra|lra|]. intros E. assert (besselJ 0 (3 / 2) ^ 2 < 1) by nra. lra. Qed.
