(** C151: the response of the junction to a small signal. *)
From Coq Require Import List ZArith Lia Bool Arith Reals Lra.
From Coquelicot Require Import Coquelicot.
From Verif Require Import Base Bessel Model_QtCurrent Spec_QtCurrent Spec_QtApi Spec_Small Proof_QtApi Proof_QtApi2 Proof_QtWit Proof_Power3 Proof_Small Properties_Power.
Import ListNotations.
Open Scope R_scope.

(** C151 — a single tone of drive level alpha (|alpha| <= 1) and photon voltage f; F bounds both
    parts of the response within num_b photon voltages of the bias. *)
Theorem C151_dc (vj : nat -> nat -> vec) (cct : qcct) (resp : R -> C) (alpha : R) :
  q_num_f cct = 1%nat -> q_num_p cct = 1%nat -> / 10000 < q_freq cct 1 ->
  (forall i, (i < q_npts cct)%nat -> vj 1%nat 1%nat i = RtoC (alpha * q_freq cct 1)) -> Rabs alpha <= 1 ->
  forall (num_b i : nat) (F : R), (1 <= num_b)%nat -> (i < q_npts cct)%nat ->
  (forall v, Rabs (v - q_vb cct i) <= INR num_b * q_freq cct 1 -> Rabs (Re (resp v)) <= F /\ Rabs (Im (resp v)) <= F) ->
  forall row, qtcurrent besselJ vj cct resp (FScalar 0) (NbInt num_b) None = Ok (QReal row) ->
  Rabs (nth i row 0 - rectified (fun v => Im (resp v)) (q_freq cct 1) alpha (q_vb cct i)) <= F * alpha ^ 4.
Proof. exact (small_dc vj cct resp alpha). Qed.
Print Assumptions C151_dc.

Theorem C151_ac (vj : nat -> nat -> vec) (cct : qcct) (resp : R -> C) (alpha : R) :
  q_num_f cct = 1%nat -> q_num_p cct = 1%nat -> / 10000 < q_freq cct 1 ->
  (forall i, (i < q_npts cct)%nat -> vj 1%nat 1%nat i = RtoC (alpha * q_freq cct 1)) -> Rabs alpha <= 1 ->
  forall (num_b i : nat) (F : R), (1 <= num_b)%nat -> (i < q_npts cct)%nat ->
  (forall v, Rabs (v - q_vb cct i) <= INR num_b * q_freq cct 1 -> Rabs (Re (resp v)) <= F /\ Rabs (Im (resp v)) <= F) ->
  forall row, qtcurrent besselJ vj cct resp (FList [q_freq cct 1]) (NbInt num_b) None = Ok (QRows [row]) ->
  Rabs (Re (nth i row (RtoC 0)) - conductance (fun v => Im (resp v)) (q_freq cct 1) (q_vb cct i) * (alpha * q_freq cct 1)) <= 4 * F * Rabs alpha ^ 3 /\
  Rabs (Im (nth i row (RtoC 0)) - susceptance (fun v => Re (resp v)) (q_freq cct 1) (q_vb cct i) * (alpha * q_freq cct 1)) <= 4 * F * Rabs alpha ^ 3.
Proof. exact (small_ac vj cct resp alpha). Qed.
Print Assumptions C151_ac.

(** A junction that conducts above the gap (I = v for v >= 1, none below) biased at the gap, a tone
    of photon voltage 3/10 and drive level 1/10: the rectified current is near 1 - 7/4000 and the
    admittance at the tone near (13/10)/(6/10). *)
Definition sm_resp (v : R) : C := (0, if Rle_dec 1 v then v else 0).
Definition sm_vj : nat -> nat -> vec := fun _ _ _ => RtoC (1 / 10 * (3 / 10)).
Example C151_case : exists dc ac, qtcurrent besselJ sm_vj pw1_cct sm_resp (FScalar 0) (NbInt 5) None = Ok (QReal dc) /\
  qtcurrent besselJ sm_vj pw1_cct sm_resp (FList [3 / 10]) (NbInt 5) None = Ok (QRows [ac]) /\
  Rabs (nth 1 dc 0 - (1 - 7 / 4000)) <= / 4000 /\
  Rabs (Re (nth 1 ac (RtoC 0)) - 13 / 6 * (3 / 100)) <= 1 / 100 /\ Rabs (Im (nth 1 ac (RtoC 0))) <= 1 / 100.
Proof.
  destruct (qt_dc_runs sm_vj pw1_cct sm_resp (NbInt 5) (pw1_args 5)) as [dc E1]. destruct (qt_ac_runs sm_vj pw1_cct sm_resp (NbInt 5) (3 / 10) (pw1_args 5)) as [ac E2].
  exists dc, ac. split; [exact E1|]. split; [exact E2|].
  assert (B : forall v, Rabs (v - q_vb pw1_cct 1) <= INR 5 * q_freq pw1_cct 1 -> Rabs (Re (sm_resp v)) <= 5 / 2 /\ Rabs (Im (sm_resp v)) <= 5 / 2).
  { intros v H. cbn [pw1_cct q_vb q_freq] in H. cbn [INR] in H. apply Rabs_le_between in H. unfold sm_resp. cbn [Re Im fst snd]. rewrite Rabs_R0. split; [lra|]. destruct (Rle_dec 1 v). { rewrite Rabs_pos_eq; lra. } rewrite Rabs_R0. lra. }
  assert (A : Rabs (1 / 10) <= 1) by (rewrite Rabs_pos_eq; lra).
  assert (D := C151_dc sm_vj pw1_cct sm_resp (1 / 10) eq_refl eq_refl ltac:(cbn; lra) ltac:(intros i _; reflexivity) A 5 1 (5 / 2) ltac:(lia) ltac:(cbn; lia) B dc E1).
  assert (C := C151_ac sm_vj pw1_cct sm_resp (1 / 10) eq_refl eq_refl ltac:(cbn; lra) ltac:(intros i _; reflexivity) A 5 1 (5 / 2) ltac:(lia) ltac:(cbn; lia) B ac E2). destruct C as [C1 C2].
  unfold rectified, conductance, susceptance in *. cbn [pw1_cct q_vb q_freq INR] in *. unfold sm_resp in *. cbn [Re Im fst snd] in D, C1, C2.
  destruct (Rle_dec 1 1) as [|N]; [|lra]. destruct (Rle_dec 1 (1 + 3 / 10)) as [|N]; [|lra]. destruct (Rle_dec 1 (1 - 3 / 10)) as [N|_]; [lra|]. rewrite (Rabs_pos_eq (1 / 10)) in C1, C2 by lra.
  split; [|split].
  - replace (1 - 7 / 4000) with (1 + (1 / 10) ^ 2 / 4 * (1 + 3 / 10 - 2 * 1 + 0)) by field. lra.
  - replace (13 / 6 * (3 / 100)) with ((1 + 3 / 10 - 0) / (2 * (3 / 10)) * (1 / 10 * (3 / 10))) by field. lra.
  - match type of C2 with Rabs ?x <= _ => replace x with (Im (nth 1 ac (RtoC 0))) in C2 by (unfold Im; field) end. lra.
Qed.
