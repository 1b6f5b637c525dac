(** Property C170: one tone of one harmonic.  The tunnelling current and its change with the
    junction voltage are bounded by the response function, whatever the truncation; from this,
    how small the embedding impedance has to be for harmonic_balance to converge. *)
From Coq Require Import List ZArith Lia Bool Arith Reals Lra String.
From Coquelicot Require Import Complex.
From Verif Require Import Base Sums Round Bessel Model_QtCurrent Spec_QtCurrent Spec_QtApi Model_Circuit Model_HB Spec_HB Spec_HBConv
  Proof_HB3 Proof_QtWit Proof_HBWit Proof_HBWit2 Proof_HBWit4 Proof_HBConv3 Proof_Lip1 Proof_Lip1HB.
Import ListNotations.
Local Notation length := List.length.
Open Scope R_scope.

(** If the response function is at most [R0] at the bias voltage plus up to [b] photon steps on
    either side, then the direct current is at most [R0] and the alternating one at most twice
    that.  A change of the junction voltage, counted in photon steps, changes them by at most
    twice and four times [R0]. *)
Theorem C170_one_tone : forall q resp b R0 v w rv rw i, args_ok q (NbInt b) -> q_num_f q = 1%nat -> q_num_p q = 1%nat -> / 10000 < q_freq q 1 -> (i < q_npts q)%nat ->
  (forall k : Z, (Z.abs k <= Z.of_nat b)%Z -> Cmod (resp (q_vb q i + IZR k * q_freq q 1)) <= R0) ->
  qtcurrent besselJ v q resp (FList [0; q_freq q 1]) (NbInt b) None = Ok (QRows rv) -> qtcurrent besselJ w q resp (FList [0; q_freq q 1]) (NbInt b) None = Ok (QRows rw) ->
  let dc r := nth i (nth 0 r []) (RtoC 0) in let ac r := nth i (nth 1 r []) (RtoC 0) in let d := Cmod (v 1%nat 1%nat i - w 1%nat 1%nat i)%C / q_freq q 1 in
  Cmod (dc rv) <= R0 /\ Cmod (ac rv) <= 2 * R0 /\ Cmod (dc rv - dc rw)%C <= 2 * R0 * d /\ Cmod (ac rv - ac rw)%C <= 4 * R0 * d.
Proof. exact one_call. Qed.
Print Assumptions C170_one_tone.

(** The circuit has one solution and harmonic_balance finds it, from any initial voltage, if
    the impedance is below a sixteenth of the photon voltage over [R0] and the current [2 * R0]
    through it drops less than the source voltage. *)
Theorem C170_converges : forall c resp b R0, q_num_f (h_q c) = 1%nat -> q_num_p (h_q c) = 1%nat -> / 10000 < q_freq (h_q c) 1 ->
  (forall i (k : Z), (i < q_npts (h_q c))%nat -> (Z.abs k <= Z.of_nat b)%Z -> Cmod (resp (q_vb (h_q c) i + IZR k * q_freq (h_q c) 1)) <= R0) ->
  simulates c (NbInt b) -> 0 <= R0 -> 16 * R0 * Cmod (h_zt c 1%nat 1%nat) < q_freq (h_q c) 1 -> 2 * R0 * Cmod (h_zt c 1%nat 1%nat) < Cmod (source (h_vt c 1%nat 1%nat)) ->
  exists s, solution besselJ (driven c) resp (NbInt b) s /\ (forall s', solution besselJ (driven c) resp (NbInt b) s' -> agree (h_q c) s s') /\
    forall inv d vj0 zj stop, inverts inv -> 0 < d <= 1 -> can_start c vj0 zj -> 0 < stop -> exists N, forall max_it, (Z.of_nat N < max_it)%Z ->
      exists v m, r_ret (harmonic_balance besselJ inv c resp (NbInt b) max_it stop vj0 d "x" zj) = Ok (RetX v (Z.of_nat m) true) /\ (m <= N)%nat.
Proof. exact one_converges. Qed.
Print Assumptions C170_converges.

(** A response that is not linear, a unit source behind 1/40. *)
Lemma lip1_resp (k : Z) : (Z.abs k <= 1)%Z -> Cmod ((IZR k * 1) ^ 2, (IZR k * 1) ^ 3) <= 2.
Proof.
  intros K. eapply Rle_trans; [apply Proof_HBLip2.cmod_parts|]. cbn [fst snd]. assert (E : k = 0%Z \/ k = 1%Z \/ k = (-1)%Z) by lia.
  destruct E as [-> | [-> | ->]]; (rewrite (Rabs_pos_eq (_ ^ 2)) by apply pow2_ge_0).
  - rewrite Rabs_pos_eq; lra.
  - rewrite Rabs_pos_eq; lra.
  - rewrite Rabs_left; lra.
Qed.
Example C170_case : exists N, forall max_it, (Z.of_nat N < max_it)%Z ->
  exists v m, r_ret (harmonic_balance besselJ exact_inv (w1 (RtoC 1) (RtoC (1 / 40))) (fun x => (x ^ 2, x ^ 3)) (NbInt 1) max_it (1 / 1000) None 1 "x" (RtoC (1 / 2))) = Ok (RetX v (Z.of_nat m) true) /\ (m <= N)%nat.
Proof.
  assert (NZ : RtoC (1 / 40) <> RtoC 0) by (intros E; apply (f_equal fst) in E; cbn in E; lra).
  assert (MZ : Cmod (RtoC (1 / 40)) = 1 / 40) by (rewrite Cmod_R, Rabs_pos_eq; lra).
  destruct (C170_converges (w1 (RtoC 1) (RtoC (1 / 40))) (fun x => (x ^ 2, x ^ 3)) 1 2 eq_refl eq_refl) as [s [_ [_ HN]]].
  - cbn [h_q w1 wit_cct q_freq]. lra.
  - intros i k _ K. cbn [h_q w1 wit_cct q_freq q_vb]. rewrite Rplus_0_l. apply lip1_resp. exact K.
  - apply w1_simulates, NZ.
  - lra.
  - cbn [h_zt h_q w1 wit_cct q_freq Nat.eqb andb]. rewrite MZ. lra.
  - cbn [h_zt h_vt w1 Nat.eqb andb]. rewrite MZ, source_big by apply big_1. rewrite Cmod_1. lra.
  - apply (HN exact_inv 1 None (RtoC (1 / 2)) (1 / 1000) exact_inv_inverts); try lra. right. intros f p S. apply w1_signal in S. destruct S as [-> ->]. cbn [h_zt w1 Nat.eqb andb]. rewrite <- RtoC_plus. intros E. apply (f_equal fst) in E. cbn [fst RtoC] in E. lra.
Qed.
(** The same junction: its currents at any voltages are bounded by 2 and 4. *)
Example C170_tone_case : forall v rv, qtcurrent besselJ v (wit_cct 1) (fun x => (x ^ 2, x ^ 3)) (FList [0; 1]) (NbInt 1) None = Ok (QRows rv) ->
  Cmod (nth 0 (nth 0 rv []) (RtoC 0)) <= 2 /\ Cmod (nth 0 (nth 1 rv []) (RtoC 0)) <= 4.
Proof.
  intros v rv E. destruct (C170_one_tone (wit_cct 1) (fun x => (x ^ 2, x ^ 3)) 1 2 v v rv rv 0) as [H1 [H2 _]]; try assumption; try reflexivity.
  - apply (w1_args (RtoC 1) (RtoC 1)).
  - cbn [wit_cct q_freq]. lra.
  - cbn [wit_cct q_npts]. lia.
  - intros k K. cbn [wit_cct q_freq q_vb]. rewrite Rplus_0_l. apply lip1_resp. exact K.
  - split; [exact H1|lra].
Qed.
