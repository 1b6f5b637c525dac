(** Properties C120-C122: the decisions that the tunnelling-current module takes in binary64
    arithmetic.  [qtcurrent_f] (Model_QtFloat.v) selects the mixing products and computes the
    limits of the convolution in binary64; [qtcurrent] (Model_QtCurrent.v) does so exactly.
    Vocabulary in Spec_QtFloat.v. *)
From Coq Require Import List ZArith Bool Reals Lia Lra.
From Coquelicot Require Import Rcomplements Complex.
From Flocq Require Import Core.
From Verif Require Import Base Sums Round Bessel Model_QtCurrent Spec_QtCurrent Proof_QtSym Spec_QtApi Model_QtFloat Spec_QtFloat Proof_QtFloat Proof_QtFloat2.
Import ListNotations.
Local Notation length := List.length.
Open Scope R_scope.

(** ** C120 *)
(** int(a / p) is the integer quotient, rounded towards zero. *)
Theorem C120_integer_division : forall a p, (Z.abs a < 2 ^ 53)%Z -> (0 < p < 2 ^ 53)%Z ->
  Ztrunc (round radix2 (FLT_exp (-1074) 53) ZnearestE (IZR a / IZR p)) = Z.quot a p.
Proof. exact int_div_quot. Qed.
Print Assumptions C120_integer_division.
Theorem C120_coefficients : forall J vj freq num_f num_p num_b,
  (Z.of_nat num_p < 2 ^ 50)%Z -> (Z.of_nat (list_max (nbtuple num_b num_f)) < 2 ^ 50)%Z ->
  calculate_phase_factor_coeff_f J vj freq num_f num_p num_b = calculate_phase_factor_coeff J vj freq num_f num_p num_b.
Proof. exact factor_same. Qed.
Print Assumptions C120_coefficients.
(** (k - num_b) / p for k = -14, num_b = 15, p = 3: -29 / 3 is -9.66..., the limit is -9. *)
Example C120_case : int_div (-29) 3 = (-9)%Z /\ int_div (-30) 3 = (-10)%Z /\ (Z.of_nat (list_max (nbtuple (NbTuple [15; 4]%nat) 2)) < 2 ^ 50)%Z.
Proof. split; [apply (C120_integer_division (-29) 3); lia|split; [apply (C120_integer_division (-30) 3); lia|reflexivity]]. Qed.

(** ** C121 *)
Theorem C121_selection : forall J vj cct resp fl num_b rm, moderate cct num_b fl ->
  (forall w, In w (requested fl) -> clear w) ->
  (forall a, In a (index_vectors (q_num_p cct) (q_num_f cct)) -> clear (dot a (freqs cct))) ->
  qtcurrent_f J vj cct resp fl num_b rm = qtcurrent J vj cct resp (exact_request fl) num_b rm.
Proof. exact qt_same. Qed.
Print Assumptions C121_selection.
(** Two tones at the binary64 numbers 0.3 and 0.37 with two harmonics each, and the requests 0,
    0.3 and 0.07. *)
Definition fl_cct : qcct := {| q_num_f := 2; q_num_p := 2; q_npts := 3; q_freq := fun f => match f with 1%nat => rnd (3 / 10) | _ => rnd (37 / 100) end; q_vb := fun i => INR i |}.
Definition fl_request : freq_arg_f := SList [PyFloat 0; NpFloat (rnd (3 / 10)); PyFloat (rnd (7 / 100))].
Lemma fl_near x : Rabs x <= 1 -> Rabs (rnd x - x) <= / 1000000000000.
Proof. intros H. eapply Rle_trans; [apply (rnd_err x 1 H)|]. unfold u53. lra. Qed.
Example C121_case : moderate fl_cct (NbInt 15) fl_request /\ (forall w, In w (requested fl_request) -> clear w) /\
  (forall a, In a (index_vectors (q_num_p fl_cct) (q_num_f fl_cct)) -> clear (dot a (freqs fl_cct))).
Proof.
  assert (A := fl_near (3 / 10) ltac:(rewrite Rabs_pos_eq; lra)). assert (B := fl_near (37 / 100) ltac:(rewrite Rabs_pos_eq; lra)). assert (D := fl_near (7 / 100) ltac:(rewrite Rabs_pos_eq; lra)).
  apply Rabs_le_between in A, B, D. unfold moderate, requested, fl_cct, fl_request. cbn [q_num_p q_num_f q_freq exact_request flist map value In].
  split; [split; [reflexivity|split; [reflexivity|split]]|split].
  - intros f Hf. assert (C2 : f = 1%nat \/ f = 2%nat) by lia. destruct C2 as [-> | ->]; cbn [INR]; rewrite Rabs_pos_eq; lra.
  - intros w [<- |[<- |[<- |[]]]]; apply Rabs_le; lra.
  - intros w [<- |[<- |[<- |[]]]]; [exists 0%Z|exists 3000%Z|exists 700%Z]; apply Rabs_le; lra.
  - intros a Ha. apply in_index_vectors in Ha. destruct Ha as [L F]. destruct a as [|x [|y [|z a]]]; try discriminate.
    inversion F as [|? ? X F']; subst. inversion F' as [|? ? Y _]; subst. cbn in X, Y.
    exists (3000 * x + 3700 * y)%Z. unfold freqs. cbn [q_num_f q_freq map seq dot]. rewrite plus_IZR, !mult_IZR.
    assert (X' : -2 <= IZR x <= 2) by (split; apply IZR_le; lia). assert (Y' : -2 <= IZR y <= 2) by (split; apply IZR_le; lia).
    replace (IZR x * rnd (3 / 10) + (IZR y * rnd (37 / 100) + 0) - (3000 * IZR x + 3700 * IZR y) / 10000) with (IZR x * (rnd (3 / 10) - 3 / 10) + IZR y * (rnd (37 / 100) - 37 / 100)) by field.
    apply Rabs_le. split; nra.
Qed.

(** ** C122 *)
(** Away from the midpoints a scalar and a one-element list, of either kind of float, give the
    same currents. *)
Theorem C122_request_kinds_partial : forall J vj cct resp w num_b rm row, moderate cct num_b (SScalar w) -> clear w ->
  (forall a, In a (index_vectors (q_num_p cct) (q_num_f cct)) -> clear (dot a (freqs cct))) ->
  qtcurrent_f J vj cct resp (SList [NpFloat w]) num_b rm = Ok (QRows [row]) ->
  qtcurrent_f J vj cct resp (SList [PyFloat w]) num_b rm = Ok (QRows [row]) /\
  qtcurrent_f J vj cct resp (SScalar w) num_b rm = Ok (if Reqb (round4 w) 0 then QReal (map Re row) else QRow row).
Proof. exact request_kinds. Qed.
Print Assumptions C122_request_kinds_partial.
(** A tone at the binary64 number 0.30025: asked for with that very number, the current is zero
    for all voltages; asked for with a list, it is the current of the tone, which is not zero. *)
Theorem C122_own_frequency_refuted : f0 = round radix2 (FLT_exp (-1074) 53) ZnearestE (30025 / 100000) /\
  (forall J vj resp npts vb b, let cct := {| q_num_f := 1; q_num_p := 1; q_npts := npts; q_freq := fun _ => f0; q_vb := vb |} in
    qtcurrent_f J vj cct resp (SScalar f0) (NbInt b) None = Ok (QRow (repeat (RtoC 0) npts)) /\
    qtcurrent_f J vj cct resp (SList [NpFloat f0]) (NbInt b) None = qtcurrent J vj cct resp (FList [f0]) (NbInt b) None) /\
  exists vj resp npts vb b row, let cct := {| q_num_f := 1; q_num_p := 1; q_npts := npts; q_freq := fun _ => f0; q_vb := vb |} in
    qtcurrent_f besselJ vj cct resp (SList [NpFloat f0]) (NbInt b) None = Ok (QRows [row]) /\ nth 0 row (RtoC 0) <> RtoC 0.
Proof. exact own_frequency. Qed.
Print Assumptions C122_own_frequency_refuted.
