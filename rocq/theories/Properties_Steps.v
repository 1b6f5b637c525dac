(** The theorems of property C155. *)
From Coq Require Import List Bool ZArith Reals Lra Lia.
From Coquelicot Require Import Complex.
From Verif Require Import Base Sums Bessel Model_QtCurrent Spec_QtCurrent Spec_QtApi Spec_Power Spec_IVModels Spec_Steps Properties_Power Proof_Steps.
Import ListNotations.
Open Scope R_scope.

(** ** C155 *)
(** The rise of the pumped curve between two bias points: for every photon number n the step
    of height J_n(alpha)^2 at 1 - n f (and at -1 - n f), plus at most the voltage difference
    times the captured probability. *)
Theorem C155_photon_steps : forall vj cct resp b alpha row i j,
  args_ok cct (NbInt b) -> q_num_f cct = 1%nat -> q_num_p cct = 1%nat -> / 10000 < q_freq cct 1 ->
  (forall i, (i < q_npts cct)%nat -> vj 1%nat 1%nat i = RtoC (alpha * q_freq cct 1)) ->
  (forall v, ideal v (Im (resp v))) -> (i < q_npts cct)%nat -> (j < q_npts cct)%nat ->
  qtcurrent besselJ vj cct resp (FScalar 0) (NbInt b) None = Ok (QReal row) ->
  forall ki kj, q_vb cct i <= q_vb cct j ->
  (forall n, (- Z.of_nat b <= n <= Z.of_nat b)%Z -> steps_passed (q_vb cct i + IZR n * q_freq cct 1) (ki n)) ->
  (forall n, (- Z.of_nat b <= n <= Z.of_nat b)%Z -> steps_passed (q_vb cct j + IZR n * q_freq cct 1) (kj n)) ->
  let S := zsum b (fun n => besselZ besselJ n alpha ^ 2 * (kj n - ki n)) in
  S <= nth j row 0 - nth i row 0 <= S + captured b alpha * (q_vb cct j - q_vb cct i).
Proof. exact photon_steps. Qed.
Print Assumptions C155_photon_steps.

(** Between the steps the curve is a straight line: its slope is the probability of the photon
    numbers whose voltage lies outside the gap. *)
Theorem C155_plateau : forall vj cct resp b alpha row i j,
  args_ok cct (NbInt b) -> q_num_f cct = 1%nat -> q_num_p cct = 1%nat -> / 10000 < q_freq cct 1 ->
  (forall i, (i < q_npts cct)%nat -> vj 1%nat 1%nat i = RtoC (alpha * q_freq cct 1)) ->
  (forall v, ideal v (Im (resp v))) -> (i < q_npts cct)%nat -> (j < q_npts cct)%nat ->
  qtcurrent besselJ vj cct resp (FScalar 0) (NbInt b) None = Ok (QReal row) ->
  forall k, (forall n, (- Z.of_nat b <= n <= Z.of_nat b)%Z -> steps_passed (q_vb cct i + IZR n * q_freq cct 1) (k n) /\
    steps_passed (q_vb cct j + IZR n * q_freq cct 1) (k n)) ->
  nth j row 0 - nth i row 0 = (q_vb cct j - q_vb cct i) *
    zsum b (fun n => besselZ besselJ n alpha ^ 2 * (if Rlt_dec (Rabs (q_vb cct i + IZR n * q_freq cct 1)) 1 then 0 else 1)).
Proof. exact photon_plateau. Qed.
Print Assumptions C155_plateau.

(** Across the one step of photon number n0 the current rises by J_n0(alpha)^2, up to the
    voltage difference. *)
Theorem C155_one_step : forall vj cct resp b alpha row i j,
  args_ok cct (NbInt b) -> q_num_f cct = 1%nat -> q_num_p cct = 1%nat -> / 10000 < q_freq cct 1 ->
  (forall i, (i < q_npts cct)%nat -> vj 1%nat 1%nat i = RtoC (alpha * q_freq cct 1)) ->
  (forall v, ideal v (Im (resp v))) -> (i < q_npts cct)%nat -> (j < q_npts cct)%nat ->
  qtcurrent besselJ vj cct resp (FScalar 0) (NbInt b) None = Ok (QReal row) ->
  forall n0, (- Z.of_nat b <= n0 <= Z.of_nat b)%Z ->
  q_vb cct i + IZR n0 * q_freq cct 1 < 1 < q_vb cct j + IZR n0 * q_freq cct 1 -> - (1) < q_vb cct i + IZR n0 * q_freq cct 1 ->
  (forall n, (- Z.of_nat b <= n <= Z.of_nat b)%Z -> n <> n0 -> exists k, steps_passed (q_vb cct i + IZR n * q_freq cct 1) k /\
    steps_passed (q_vb cct j + IZR n * q_freq cct 1) k) ->
  besselZ besselJ n0 alpha ^ 2 <= nth j row 0 - nth i row 0 <= besselZ besselJ n0 alpha ^ 2 + (q_vb cct j - q_vb cct i).
Proof. exact one_step. Qed.
Print Assumptions C155_one_step.

(** A drive of alpha = 2 at f = 0.3: nothing happens between 0.6 and 0.65, the first photon
    step lies at 0.7. *)
Definition st_cct : qcct := {| q_num_f := 1; q_num_p := 1; q_npts := 3; q_freq := fun _ => 3 / 10; q_vb := fun i => 6 / 10 + INR (i * (i + 1)) / 40 |}.
Definition st_vj (f p i : nat) : C := RtoC (2 * (3 / 10)).
Definition st_resp (v : R) : C := (0, if Rlt_dec (Rabs v) 1 then 0 else if Rlt_dec 1 (Rabs v) then v else v / 2).
Lemma st_args n : args_ok st_cct (NbInt n).
Proof. unfold args_ok. cbn [st_cct q_num_f q_num_p q_freq]. repeat split; try lia. intros f _; lra. Qed.
Lemma st_ideal v : ideal v (Im (st_resp v)).
Proof. unfold ideal, st_resp. cbn [Im snd]. destruct (Rlt_dec (Rabs v) 1), (Rlt_dec 1 (Rabs v)); repeat split; intros; lra. Qed.
Lemma st_bias i : (i < 3)%nat -> q_vb st_cct i = match i with 0%nat => 6 / 10 | 1%nat => 65 / 100 | _ => 75 / 100 end.
Proof. intros H. cbn [st_cct q_vb]. destruct i as [|[|[|]]]; [cbn [Nat.mul Nat.add INR]; lra..|lia]. Qed.
Lemma st_inside v : - (1) < v < 1 -> steps_passed v 0.
Proof. intros H. unfold steps_passed. repeat split; intros; lra. Qed.
Lemma st_above v : 1 < v -> steps_passed v 1.
Proof. intros H. unfold steps_passed, Rabs. destruct (Rcase_abs v); repeat split; intros; lra. Qed.
Lemma st_small v : - (1) < v < 1 -> (if Rlt_dec (Rabs v) 1 then 0 else 1) = 0.
Proof. intros H. destruct (Rlt_dec (Rabs v) 1) as [L|L]; [reflexivity|]. exfalso. apply L. apply Rabs_def1; lra. Qed.
Lemma st_large v : 1 < v -> (if Rlt_dec (Rabs v) 1 then 0 else 1) = 1.
Proof. intros H. destruct (Rlt_dec (Rabs v) 1) as [L|L]; [|reflexivity]. rewrite Rabs_pos_eq in L by lra. lra. Qed.
Lemma st_five n : (- Z.of_nat 2 <= n <= Z.of_nat 2)%Z -> (n = -2 \/ n = -1 \/ n = 0 \/ n = 1 \/ n = 2)%Z.
Proof. cbn [Z.of_nat Pos.of_succ_nat Pos.succ]. lia. Qed.

Example C155_case : exists row, qtcurrent besselJ st_vj st_cct st_resp (FScalar 0) (NbInt 2) None = Ok (QReal row) /\
  nth 1 row 0 - nth 0 row 0 = (65 / 100 - 6 / 10) * besselJ 2 2 ^ 2 /\
  besselJ 1 2 ^ 2 <= nth 2 row 0 - nth 1 row 0 <= besselJ 1 2 ^ 2 + (75 / 100 - 65 / 100).
Proof.
  destruct (qt_dc_runs st_vj st_cct st_resp (NbInt 2) (st_args 2)) as [row E]. exists row. split; [exact E|].
  assert (Hf : / 10000 < q_freq st_cct 1) by (cbn [st_cct q_freq]; lra).
  assert (N : q_npts st_cct = 3%nat) by reflexivity.
  assert (FQ : q_freq st_cct 1 = 3 / 10) by reflexivity.
  assert (B0 := st_bias 0 ltac:(lia)). assert (B1 := st_bias 1 ltac:(lia)). assert (B2 := st_bias 2 ltac:(lia)). cbv iota in B0, B1, B2.
  assert (V : forall i, (i < q_npts st_cct)%nat -> st_vj 1 1 i = RtoC (2 * q_freq st_cct 1)) by (intros; reflexivity).
  split.
  - pose proof (C155_plateau st_vj st_cct st_resp 2 2 row 0 1 (st_args 2) eq_refl eq_refl Hf V st_ideal ltac:(rewrite N; lia) ltac:(rewrite N; lia) E
      (fun n => if Z.eqb n 2 then 1 else 0)) as P.
    rewrite P.
    + rewrite B0, B1, FQ. f_equal. unfold zsum. change (sym 2) with [(-2)%Z; (-1)%Z; 0%Z; 1%Z; 2%Z]. cbn [map fold_right].
      rewrite !st_small by lra. rewrite st_large by lra. change (besselZ besselJ 2 2) with (besselJ 2 2). ring.
    + intros n Hn. rewrite B0, B1, FQ. destruct (st_five n Hn) as [->|[->|[->|[->| ->]]]]; cbn [Z.eqb Pos.eqb];
        (split; (apply st_inside; lra) || (apply st_above; lra)).
  - pose proof (C155_one_step st_vj st_cct st_resp 2 2 row 1 2 (st_args 2) eq_refl eq_refl Hf V st_ideal ltac:(rewrite N; lia) ltac:(rewrite N; lia) E 1%Z) as P.
    rewrite B1, B2, FQ in P. apply P; [lia|lra|lra|]. intros n Hn Hne.
    destruct (st_five n Hn) as [->|[->|[->|[->| ->]]]]; try lia; try (exists 0; split; apply st_inside; lra); exists 1; split; apply st_above; lra.
Qed.
