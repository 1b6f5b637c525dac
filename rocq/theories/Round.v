(** Rounding to 4 decimal places, as Python's [round(x, 4)] does on exact
    values: to the nearest multiple of 1/10000, ties to even.
    qmix/qtcurrent.py:30-32 (ROUND_FREQ = 4). *)
From Coq Require Import Reals ZArith Lia Lra.
From Coquelicot Require Import Rcomplements.
Open Scope R_scope.

(** Nearest integer, ties to even. *)
Definition rint (x : R) : Z :=
  let n := Int_part x in
  if Rlt_dec (x - IZR n) (/ 2) then n
  else if Rlt_dec (/ 2) (x - IZR n) then (n + 1)%Z
  else if Z.even n then n else (n + 1)%Z.

Definition round_dec (d : nat) (x : R) : R := IZR (rint (x * 10 ^ d)) / 10 ^ d.
Definition round4 (x : R) : R := round_dec 4 x.

Lemma rint_spec x : Rabs (IZR (rint x) - x) <= / 2.
Proof.
  unfold rint. pose proof (base_Int_part x) as [H1 H2].
  destruct (Rlt_dec (x - IZR (Int_part x)) (/ 2)).
  - apply Rabs_le; lra.
  - destruct (Rlt_dec (/ 2) (x - IZR (Int_part x))).
    + rewrite plus_IZR. apply Rabs_le; lra.
    + destruct (Z.even (Int_part x)).
      * apply Rabs_le; lra.
      * rewrite plus_IZR. apply Rabs_le; lra.
Qed.

Lemma Int_part_unique x n : IZR n <= x < IZR n + 1 -> Int_part x = n.
Proof.
  intros H. pose proof (base_Int_part x) as [H1 H2].
  assert (A : IZR (Int_part x) < IZR (n + 1)) by (rewrite plus_IZR; lra).
  assert (B : IZR n < IZR (Int_part x + 1)) by (rewrite plus_IZR; lra).
  apply lt_IZR in A, B. lia.
Qed.

Lemma rint_unique_strict x n : Rabs (IZR n - x) < / 2 -> rint x = n.
Proof.
  intros H. pose proof (rint_spec x) as S.
  assert (D : Rabs (IZR (rint x - n)) < 1).
  { rewrite minus_IZR. replace (IZR (rint x) - IZR n) with ((IZR (rint x) - x) - (IZR n - x)) by ring.
    eapply Rle_lt_trans; [apply Rabs_triang|]. rewrite Rabs_Ropp. lra. }
  rewrite <- abs_IZR in D. apply lt_IZR in D. lia.
Qed.

Lemma rint_IZR n : rint (IZR n) = n.
Proof. apply rint_unique_strict. rewrite Rminus_diag_eq by reflexivity. rewrite Rabs_R0. lra. Qed.

Lemma rint_tie n : rint (IZR n + / 2) = if Z.even n then n else (n + 1)%Z.
Proof.
  unfold rint. rewrite (Int_part_unique (IZR n + / 2) n) by lra.
  replace (IZR n + / 2 - IZR n) with (/ 2) by ring.
  destruct (Rlt_dec (/ 2) (/ 2)); [lra|]. reflexivity.
Qed.

Lemma rint_opp x : rint (- x) = (- rint x)%Z.
Proof.
  pose proof (base_Int_part x) as [H1 H2]. set (n := Int_part x) in *.
  destruct (Req_dec (x - IZR n) (/ 2)) as [E|E].
  - replace x with (IZR n + / 2) by lra.
    replace (- (IZR n + / 2)) with (IZR (- n - 1) + / 2) by (rewrite minus_IZR, opp_IZR; lra).
    rewrite !rint_tie. replace (- n - 1)%Z with (- (n + 1))%Z by lia.
    rewrite Z.even_opp, Z.even_add. simpl. destruct (Z.even n); simpl; lia.
  - apply rint_unique_strict. rewrite opp_IZR.
    assert (Rabs (IZR (rint x) - x) < / 2).
    { unfold rint. fold n. destruct (Rlt_dec (x - IZR n) (/ 2)).
      - apply Rabs_def1; lra.
      - destruct (Rlt_dec (/ 2) (x - IZR n)); [rewrite plus_IZR; apply Rabs_def1; lra|lra]. }
    replace (- IZR (rint x) - - x) with (- (IZR (rint x) - x)) by ring. now rewrite Rabs_Ropp.
Qed.

Lemma rint_mono x y : x <= y -> (rint x <= rint y)%Z.
Proof.
  intros H. destruct (Z_le_gt_dec (rint x) (rint y)) as [|G]; [assumption|exfalso].
  pose proof (rint_spec x) as Sx. pose proof (rint_spec y) as Sy.
  apply Rabs_le_between in Sx. apply Rabs_le_between in Sy.
  assert (IZR (rint y) + 1 <= IZR (rint x)) by (rewrite <- plus_IZR; apply IZR_le; lia).
  assert (E : x = y) by lra. subst. lia.
Qed.

Lemma round_dec_opp d x : round_dec d (- x) = - round_dec d x.
Proof.
  unfold round_dec. rewrite <- Ropp_mult_distr_l, rint_opp, opp_IZR. unfold Rdiv.
  now rewrite <- Ropp_mult_distr_l.
Qed.

Lemma pow10_pos d : 0 < 10 ^ d.
Proof. apply pow_lt. lra. Qed.

Lemma round_dec_idem d x : round_dec d (round_dec d x) = round_dec d x.
Proof.
  unfold round_dec at 1. unfold round_dec at 1. unfold Rdiv. rewrite Rmult_assoc, Rinv_l, Rmult_1_r.
  - now rewrite rint_IZR.
  - pose proof (pow10_pos d). lra.
Qed.

Lemma round_dec_error d x : Rabs (round_dec d x - x) <= / 2 / 10 ^ d.
Proof.
  pose proof (pow10_pos d) as P. unfold round_dec.
  replace (IZR (rint (x * 10 ^ d)) / 10 ^ d - x) with ((IZR (rint (x * 10 ^ d)) - x * 10 ^ d) / 10 ^ d) by (field; lra).
  unfold Rdiv at 1. rewrite Rabs_mult, (Rabs_right (/ 10 ^ d)).
  - apply Rmult_le_compat_r; [left; now apply Rinv_0_lt_compat|]. apply rint_spec.
  - left. now apply Rinv_0_lt_compat.
Qed.

Lemma round_dec_0 d : round_dec d 0 = 0.
Proof. unfold round_dec. rewrite Rmult_0_l. rewrite rint_IZR. unfold Rdiv. ring. Qed.

Lemma round_dec_exact d n : round_dec d (IZR n / 10 ^ d) = IZR n / 10 ^ d.
Proof.
  unfold round_dec. replace (IZR n / 10 ^ d * 10 ^ d) with (IZR n).
  - now rewrite rint_IZR.
  - field. pose proof (pow10_pos d). lra.
Qed.

Lemma round_dec_mono d x y : x <= y -> round_dec d x <= round_dec d y.
Proof.
  intros H. unfold round_dec, Rdiv. apply Rmult_le_compat_r.
  - left. apply Rinv_0_lt_compat, pow10_pos.
  - apply IZR_le, rint_mono. apply Rmult_le_compat_r; [left; apply pow10_pos|assumption].
Qed.

Lemma round4_opp x : round4 (- x) = - round4 x.
Proof. apply round_dec_opp. Qed.
Lemma round4_idem x : round4 (round4 x) = round4 x.
Proof. apply round_dec_idem. Qed.
Lemma round4_0 : round4 0 = 0.
Proof. apply round_dec_0. Qed.
