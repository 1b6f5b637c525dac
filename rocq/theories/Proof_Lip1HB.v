(** The circuit of one tone: how small the embedding impedance has to be. *)
From Coq Require Import List ZArith Lia Bool Arith Reals Lra String.
From Coquelicot Require Import Coquelicot.
From Verif Require Import Base Sums Round Bessel Model_QtCurrent Spec_QtCurrent Spec_QtApi Model_Circuit Model_HB Spec_HB Spec_HBConv
  Proof_HB3 Proof_HBConv Proof_HBConv2 Proof_HBLip Proof_HBLip2 Proof_HBConv3 Proof_Lip1.
Import ListNotations.
Local Notation length := List.length.
Open Scope R_scope.

Section One.
Variables (c : hcct) (resp : R -> C) (b : nat) (R0 : R).
Local Notation q := (h_q c).
Local Notation z := (Cmod (h_zt c 1%nat 1%nat)).
Hypothesis HF : q_num_f q = 1%nat.
Hypothesis HP : q_num_p q = 1%nat.
Hypothesis Hf : / 10000 < q_freq q 1.
Hypothesis HR : forall i (k : Z), (i < q_npts q)%nat -> (Z.abs k <= Z.of_nat b)%Z -> Cmod (resp (q_vb q i + IZR k * q_freq q 1)) <= R0.

Lemma one_total a : total q a = a 1%nat 1%nat.
Proof. unfold total. rewrite HF, HP. cbn [rsum_to]. ring. Qed.
Lemma one_signal f p : signal q f p -> f = 1%nat /\ p = 1%nat.
Proof. intros [S1 S2]. rewrite HF in S1. rewrite HP in S2. lia. Qed.
Lemma one_freq : q_freq q 1 * INR 1 = q_freq q 1.
Proof. cbn [INR]. ring. Qed.
Lemma one_follows : follows besselJ c resp (NbInt b) (4 * R0 * z / q_freq q 1).
Proof.
  intros v w i Hi. unfold distance. rewrite !one_total, Cmod_mult. unfold current_at. rewrite one_freq.
  apply Rle_trans with (z * (4 * R0 / q_freq q 1 * Cmod (v 1%nat 1%nat i - w 1%nat 1%nat i)%C)); [|right; field; lra].
  apply Rmult_le_compat_l; [apply Cmod_ge_0|]. apply (one_ac_lip q resp (NbInt b) R0 HF HP Hf i); [|reflexivity]. intros k K. now apply HR.
Qed.
Lemma one_current v i : (i < q_npts q)%nat -> Cmod (current_at besselJ q resp (NbInt b) v 1 1 i) <= 2 * R0.
Proof. intros Hi. unfold current_at. rewrite one_freq. apply (one_ac_le q resp (NbInt b) R0 HF HP Hf i); [|reflexivity]. intros k K. now apply HR. Qed.

Theorem one_converges : simulates c (NbInt b) -> 0 <= R0 -> 16 * R0 * z < q_freq q 1 -> 2 * R0 * z < Cmod (source (h_vt c 1%nat 1%nat)) ->
  exists s, solution besselJ (driven c) resp (NbInt b) s /\ (forall s', solution besselJ (driven c) resp (NbInt b) s' -> agree q s s') /\
    forall inv d vj0 zj stop, inverts inv -> 0 < d <= 1 -> can_start c vj0 zj -> 0 < stop -> exists N, forall max_it, (Z.of_nat N < max_it)%Z ->
      exists v m, r_ret (harmonic_balance besselJ inv c resp (NbInt b) max_it stop vj0 d "x" zj) = Ok (RetX v (Z.of_nat m) true) /\ (m <= N)%nat.
Proof.
  intros HS P0 HZ HV. set (k := 4 * R0 * z / q_freq q 1). assert (Z0 := Cmod_ge_0 (h_zt c 1%nat 1%nat)).
  assert (K : 0 <= k < 1 / 4).
  { unfold k. split; [apply Rmult_le_pos; [apply Rmult_le_pos; lra|apply Rlt_le, Rinv_0_lt_compat; lra]|]. apply Rmult_lt_reg_r with (q_freq q 1); [lra|]. replace (4 * R0 * z / q_freq q 1 * q_freq q 1) with (4 * R0 * z) by (field; lra). lra. }
  assert (F := one_follows). fold k in F. assert (FD : follows besselJ (driven c) resp (NbInt b) k) by exact F.
  destruct (solution_exists besselJ (driven c) resp (NbInt b) k ltac:(lra) FD) as [s SOL]. exists s. split; [assumption|]. split.
  { intros s' SOL'. exact (solution_unique besselJ (driven c) resp (NbInt b) k FD s s' ltac:(lra) SOL SOL'). }
  intros inv d vj0 zj stop INV D CS ST.
  destruct (reaches besselJ inv c resp (NbInt b) k s d vj0 zj (Cmod (source (h_vt c 1%nat 1%nat)) - 2 * R0 * z) stop HS INV F K D CS SOL ltac:(lra)) as [N HN]; [intros f p i S I|assumption|].
  - pose proof (SOL f p i S I) as E. apply one_signal in S. destruct S as [-> ->]. unfold residual_at in E. cbn [h_q h_vt h_zt driven] in E.
    assert (HI := one_current s i I). set (J := current_at besselJ q resp (NbInt b) s 1 1 i) in *.
    assert (ES : source (h_vt c 1%nat 1%nat) = (s 1%nat 1%nat i + h_zt c 1%nat 1%nat * J)%C).
    { transitivity ((source (h_vt c 1%nat 1%nat) - h_zt c 1%nat 1%nat * J - s 1%nat 1%nat i) + (s 1%nat 1%nat i + h_zt c 1%nat 1%nat * J))%C; [ring|]. rewrite E. ring. }
    assert (T := Cmod_triangle (s 1%nat 1%nat i) (h_zt c 1%nat 1%nat * J)%C). rewrite <- ES, Cmod_mult in T. apply (Rmult_le_compat_l _ _ _ Z0) in HI. lra.
  - exists N. intros max_it HM. destruct (HN max_it HM) as [v [m [R1 [R2 _]]]]. eauto.
Qed.
End One.
