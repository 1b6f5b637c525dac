(** Properties C103-C106: size, truncation error and power balance of the
    tunnelling currents, with the Bessel functions given by their power series.

    The vocabulary is in Spec_Power.v.  [qtcurrent] is the model of the API
    function (Model_QtCurrent.v); [pumped_iv] and [ac_current] are the helpers of
    exp_data.py (Model_Tucker.v) at one bias voltage. *)
From Coq Require Import List ZArith Bool Reals Lia Lra.
From Coquelicot Require Import Complex.
From Verif Require Import Base Sums Round Bessel Model_QtCurrent Spec_QtCurrent Spec_QtApi Model_Tucker Spec_Power
  Proof_QtCurrent2 Proof_QtSym Proof_QtApi2 Proof_Power Proof_Power2 Proof_Power3.
Import ListNotations.
Open Scope R_scope.
Local Notation length := List.length.

(** Two tones, three bias points; a bounded response function. *)
Definition pw_cct : qcct :=
  {| q_num_f := 2; q_num_p := 1; q_npts := 3; q_freq := fun f => match f with 1%nat => 3 / 10 | _ => 35 / 100 end; q_vb := fun i => INR i |}.
Definition pw_vj (f p i : nat) : C := (1 / INR (f + p), INR i / 10).
Definition pw_resp (v : R) : C := (cos v, sin v).
Lemma pw_args n : args_ok pw_cct (NbInt n).
Proof. unfold args_ok. cbn [pw_cct q_num_f q_num_p q_freq]. repeat split; try lia. intros [|[|f]] _; lra. Qed.
Lemma pw_args2 l : (2 <= length l)%nat -> args_ok pw_cct (NbTuple l).
Proof. intros H. unfold args_ok. cbn [pw_cct q_num_f q_num_p q_freq]. repeat split; try lia. intros [|[|f]] _; lra. Qed.
Lemma pw_in a : In a (index_vectors 1 2) -> exists x y, a = [x; y] /\ (x = -1 \/ x = 0 \/ x = 1)%Z /\ (y = -1 \/ y = 0 \/ y = 1)%Z.
Proof.
  intros H. apply in_index_vectors in H. destruct H as [L F]. destruct a as [|x [|y [|z a]]]; try discriminate. exists x, y. split; [reflexivity|].
  inversion F as [|? ? X F']; subst. inversion F' as [|? ? Y F'']; subst. cbn in X, Y. lia.
Qed.
Lemma pw_alone_dc : alone pw_cct 0 (repeat 0%Z 2).
Proof.
  intros a H E. change (q_num_p pw_cct) with 1%nat in H. change (q_num_f pw_cct) with 2%nat in H. destruct (pw_in a H) as (x & y & -> & X & Y). apply round4_close in E. unfold freqs in E. cbn [pw_cct q_num_f q_freq seq map dot] in E.
  destruct X as [-> | [-> | ->]]; destruct Y as [-> | [-> | ->]]; try reflexivity; exfalso; revert E; unfold Rabs; destruct Rcase_abs; lra.
Qed.
Lemma pw_alone_1 : alone pw_cct (3 / 10) [1; 0]%Z.
Proof.
  intros a H E. change (q_num_p pw_cct) with 1%nat in H. change (q_num_f pw_cct) with 2%nat in H. destruct (pw_in a H) as (x & y & -> & X & Y). apply round4_close in E. unfold freqs in E. cbn [pw_cct q_num_f q_freq seq map dot] in E.
  destruct X as [-> | [-> | ->]]; destruct Y as [-> | [-> | ->]]; try reflexivity; exfalso; revert E; unfold Rabs; destruct Rcase_abs; lra.
Qed.
Lemma qt_dc_runs vj cct resp num_b : args_ok cct num_b -> exists row, qtcurrent besselJ vj cct resp (FScalar 0) num_b None = Ok (QReal row).
Proof. intros A. rewrite qtcurrent_spec by auto. unfold Reqb. rewrite round4_0. destruct (Req_EM_T 0 0) as [_|N]; [|now contradiction N]. eexists. reflexivity. Qed.
Lemma qt_ac_runs vj cct resp num_b w : args_ok cct num_b -> exists row, qtcurrent besselJ vj cct resp (FList [w]) num_b None = Ok (QRows [row]).
Proof. intros A. rewrite qt_list by assumption. cbn [map]. eexists. reflexivity. Qed.

(** ** C103 *)
Theorem C103_dc_bound : forall vj cct resp num_b row i M,
  args_ok cct num_b -> q_num_p cct = 1%nat -> alone cct 0 (repeat 0%Z (q_num_f cct)) -> (i < q_npts cct)%nat ->
  (forall v, shifted (q_vb cct i) (truncations num_b (q_num_f cct)) (freqs cct) v -> Rabs (Im (resp v)) <= M) ->
  qtcurrent besselJ vj cct resp (FScalar 0) num_b None = Ok (QReal row) ->
  Rabs (nth i row 0) <= captured_all (truncations num_b (q_num_f cct)) (levels vj cct i) * M /\ Rabs (nth i row 0) <= M.
Proof. exact dc_bound. Qed.
Print Assumptions C103_dc_bound.

Theorem C103_ac_bound : forall vj cct resp num_b row w a i M,
  args_ok cct num_b -> q_num_p cct = 1%nat -> alone cct w a -> (i < q_npts cct)%nat ->
  (forall v, shifted (q_vb cct i) (truncations num_b (q_num_f cct)) (freqs cct) v -> Cmod (resp v) <= M) ->
  qtcurrent besselJ vj cct resp (FList [w]) num_b None = Ok (QRows [row]) ->
  Cmod (nth i row (RtoC 0)) <= 2 * M.
Proof. exact ac_bound. Qed.
Print Assumptions C103_ac_bound.

Example C103_case : (exists row, qtcurrent besselJ pw_vj pw_cct pw_resp (FScalar 0) (NbInt 6) None = Ok (QReal row) /\ Rabs (nth 2 row 0) <= 1) /\
  (exists row, qtcurrent besselJ pw_vj pw_cct pw_resp (FList [3 / 10]) (NbInt 6) None = Ok (QRows [row]) /\ Cmod (nth 2 row (RtoC 0)) <= 2 * 1).
Proof.
  split.
  - destruct (qt_dc_runs pw_vj pw_cct pw_resp (NbInt 6) (pw_args 6)) as [row E]. exists row. split; [exact E|].
    refine (proj2 (C103_dc_bound _ _ _ _ _ 2 1 (pw_args 6) eq_refl pw_alone_dc _ _ E)); [cbn; lia|]. intros v _. cbn [pw_resp Im snd]. pose proof (SIN_bound v). unfold Rabs. destruct Rcase_abs; lra.
  - destruct (qt_ac_runs pw_vj pw_cct pw_resp (NbInt 6) (3 / 10) (pw_args 6)) as [row E]. exists row. split; [exact E|].
    refine (C103_ac_bound _ _ _ _ _ _ _ 2 1 (pw_args 6) eq_refl pw_alone_1 _ _ E); [cbn; lia|]. intros v _. unfold Cmod, pw_resp. cbn [fst snd].
    replace (cos v ^ 2 + sin v ^ 2) with 1. { rewrite sqrt_1. lra. } rewrite <- (sin2_cos2 v). unfold Rsqr. ring.
Qed.

(** ** C104 *)
Theorem C104_truncation_error : forall vj cct resp bs bs' row row' i M,
  args_ok cct (NbTuple bs) -> q_num_p cct = 1%nat -> Forall2 le bs bs' -> alone cct 0 (repeat 0%Z (q_num_f cct)) -> (i < q_npts cct)%nat ->
  (forall v, shifted (q_vb cct i) (truncations (NbTuple bs') (q_num_f cct)) (freqs cct) v -> Rabs (Im (resp v)) <= M) ->
  qtcurrent besselJ vj cct resp (FScalar 0) (NbTuple bs) None = Ok (QReal row) ->
  qtcurrent besselJ vj cct resp (FScalar 0) (NbTuple bs') None = Ok (QReal row') ->
  Rabs (nth i row' 0 - nth i row 0) <= (1 - captured_all (truncations (NbTuple bs) (q_num_f cct)) (levels vj cct i)) * M.
Proof. exact truncation. Qed.
Print Assumptions C104_truncation_error.

(** How much of the probability a truncation misses. *)
Theorem C104_missed_probability : forall b x,
  0 <= 1 - captured b x <= 2 * Rabs x * (Rabs (x / 2) ^ (2 * b + 1) / (INR (fact b) * INR (fact (S b))) * exp (x ^ 2 / 2)).
Proof. exact captured_rate. Qed.
Print Assumptions C104_missed_probability.

(** A response function that grows like a resistor. *)
Theorem C104_converges : forall vj cct resp alpha, q_num_f cct = 1%nat -> q_num_p cct = 1%nat -> / 10000 < q_freq cct 1 ->
  (forall i, (i < q_npts cct)%nat -> vj 1%nat 1%nat i = RtoC (alpha * q_freq cct 1)) ->
  forall A B dc i, 0 <= B -> (forall v, Rabs (Im (resp v)) <= A + B * Rabs v) ->
  (forall b, qtcurrent besselJ vj cct resp (FScalar 0) (NbInt b) None = Ok (QReal (dc b))) -> (i < q_npts cct)%nat ->
  forall eps, 0 < eps -> exists N, forall b b', (N <= b)%nat -> (N <= b')%nat -> Rabs (nth i (dc b') 0 - nth i (dc b) 0) < eps.
Proof. exact one_converges. Qed.
Print Assumptions C104_converges.

Definition pw1_cct : qcct := {| q_num_f := 1; q_num_p := 1; q_npts := 3; q_freq := fun _ => 3 / 10; q_vb := fun i => INR i |}.
Definition pw1_vj (f p i : nat) : C := RtoC (2 * (3 / 10)).
Lemma pw1_args n : args_ok pw1_cct (NbInt n).
Proof. unfold args_ok. cbn [pw1_cct q_num_f q_num_p q_freq]. repeat split; try lia. intros f _; lra. Qed.

Example C104_case : (exists row row', qtcurrent besselJ pw_vj pw_cct pw_resp (FScalar 0) (NbTuple [4; 5]%nat) None = Ok (QReal row) /\
    qtcurrent besselJ pw_vj pw_cct pw_resp (FScalar 0) (NbTuple [6; 9]%nat) None = Ok (QReal row') /\
    Rabs (nth 1 row' 0 - nth 1 row 0) <= (1 - captured_all [4; 5]%nat (levels pw_vj pw_cct 1)) * 1) /\
  (exists dc, (forall b, qtcurrent besselJ pw1_vj pw1_cct (fun v => (0, 2 * v + sin v)) (FScalar 0) (NbInt b) None = Ok (QReal (dc b))) /\
    exists N, forall b b', (N <= b)%nat -> (N <= b')%nat -> Rabs (nth 1 (dc b') 0 - nth 1 (dc b) 0) < / 1000).
Proof.
  split.
  - destruct (qt_dc_runs pw_vj pw_cct pw_resp (NbTuple [4; 5]%nat)) as [row E]; [apply pw_args2; cbn; lia|]. destruct (qt_dc_runs pw_vj pw_cct pw_resp (NbTuple [6; 9]%nat)) as [row' E']; [apply pw_args2; cbn; lia|].
    exists row, row'. split; [exact E|]. split; [exact E'|].
    refine (C104_truncation_error pw_vj pw_cct pw_resp [4; 5]%nat [6; 9]%nat _ _ 1 1 _ eq_refl _ pw_alone_dc _ _ E E'); [apply pw_args2; cbn; lia|repeat constructor; lia|cbn; lia|]. intros v _. cbn [pw_resp Im snd]. pose proof (SIN_bound v). unfold Rabs. destruct Rcase_abs; lra.
  - exists (fun b => match qtcurrent besselJ pw1_vj pw1_cct (fun v => (0, 2 * v + sin v)) (FScalar 0) (NbInt b) None with Ok (QReal r) => r | _ => [] end). split.
    + intros b. destruct (qt_dc_runs pw1_vj pw1_cct (fun v => (0, 2 * v + sin v)) (NbInt b) (pw1_args b)) as [row E]. now rewrite E.
    + refine (C104_converges pw1_vj pw1_cct (fun v => (0, 2 * v + sin v)) 2 eq_refl eq_refl _ _ 1 2 _ 1 _ _ _ _ _ _); try (cbn; lia); try lra.
      * cbn. lra.
      * intros i _. reflexivity.
      * intros v. cbn [Im snd]. eapply Rle_trans; [apply Rabs_triang|]. rewrite Rabs_mult, (Rabs_pos_eq 2) by lra. pose proof (SIN_bound v). assert (Rabs (sin v) <= 1) by (unfold Rabs; destruct Rcase_abs; lra). lra.
      * intros b. destruct (qt_dc_runs pw1_vj pw1_cct (fun v => (0, 2 * v + sin v)) (NbInt b) (pw1_args b)) as [row E]. now rewrite E.
Qed.

(** ** C105 *)
(** Absorbed power (bias and pump) is the mean over photon numbers of voltage times current. *)
Theorem C105_helpers : forall idc ikk vph alpha b V,
  V * pumped_iv besselJ idc vph alpha b V + / 2 * (alpha * vph) * Re (ac_current besselJ idc ikk vph alpha b V) =
  zsum b (fun n => besselZ besselJ n alpha ^ 2 * ((V + IZR n * vph) * idc (V + IZR n * vph))).
Proof. exact power_balance. Qed.
Print Assumptions C105_helpers.

Theorem C105_passive : forall idc ikk vph alpha b V, (forall v, 0 <= v * idc v) ->
  0 <= V * pumped_iv besselJ idc vph alpha b V + / 2 * (alpha * vph) * Re (ac_current besselJ idc ikk vph alpha b V).
Proof. exact passive. Qed.
Print Assumptions C105_passive.

(** The simulated currents, up to the terms at the edge of the truncation. *)
Theorem C105_qtcurrent : forall vj cct resp alpha, q_num_f cct = 1%nat -> q_num_p cct = 1%nat -> / 10000 < q_freq cct 1 ->
  (forall i, (i < q_npts cct)%nat -> vj 1%nat 1%nat i = RtoC (alpha * q_freq cct 1)) ->
  forall b dc ac i, qtcurrent besselJ vj cct resp (FScalar 0) (NbInt b) None = Ok (QReal dc) ->
  qtcurrent besselJ vj cct resp (FList [q_freq cct 1]) (NbInt b) None = Ok (QRows [ac]) -> (i < q_npts cct)%nat ->
  let V := q_vb cct i in let f := q_freq cct 1 in
  V * nth i dc 0 + / 2 * (alpha * f) * Re (nth i ac (RtoC 0)) =
  zsum b (fun n => besselZ besselJ n alpha ^ 2 * ((V + IZR n * f) * Im (resp (V + IZR n * f)))) -
  / 2 * (alpha * f) * (besselJ b alpha * besselJ (S b) alpha) * (Im (resp (V + INR b * f)) - Im (resp (V - INR b * f))).
Proof. exact one_power. Qed.
Print Assumptions C105_qtcurrent.

Example C105_case : 0 <= 1 * pumped_iv besselJ (fun v => v * v * v) (3 / 10) 2 9 1 + / 2 * (2 * (3 / 10)) * Re (ac_current besselJ (fun v => v * v * v) (fun v => v * v) (3 / 10) 2 9 1).
Proof. apply C105_passive. intros v. replace (v * (v * v * v)) with ((v * v) * (v * v)) by ring. apply Rle_0_sqr. Qed.
Example C105_case_qtcurrent : exists dc ac, qtcurrent besselJ pw1_vj pw1_cct pw_resp (FScalar 0) (NbInt 7) None = Ok (QReal dc) /\
  qtcurrent besselJ pw1_vj pw1_cct pw_resp (FList [3 / 10]) (NbInt 7) None = Ok (QRows [ac]) /\
  INR 2 * nth 2 dc 0 + / 2 * (2 * (3 / 10)) * Re (nth 2 ac (RtoC 0)) =
  zsum 7 (fun n => besselZ besselJ n 2 ^ 2 * ((INR 2 + IZR n * (3 / 10)) * sin (INR 2 + IZR n * (3 / 10)))) -
  / 2 * (2 * (3 / 10)) * (besselJ 7 2 * besselJ 8 2) * (sin (INR 2 + INR 7 * (3 / 10)) - sin (INR 2 - INR 7 * (3 / 10))).
Proof.
  destruct (qt_dc_runs pw1_vj pw1_cct pw_resp (NbInt 7) (pw1_args 7)) as [dc E]. destruct (qt_ac_runs pw1_vj pw1_cct pw_resp (NbInt 7) (3 / 10) (pw1_args 7)) as [ac E']. exists dc, ac. split; [exact E|]. split; [exact E'|].
  refine (C105_qtcurrent pw1_vj pw1_cct pw_resp 2 eq_refl eq_refl _ _ 7%nat dc ac 2%nat E E' _); [cbn; lra|intros i _; reflexivity|cbn; lia].
Qed.

(** ** C106 *)
Theorem C106_ohm : forall vj cct resp alpha, q_num_f cct = 1%nat -> q_num_p cct = 1%nat -> / 10000 < q_freq cct 1 ->
  (forall i, (i < q_npts cct)%nat -> vj 1%nat 1%nat i = RtoC (alpha * q_freq cct 1)) ->
  forall g dc ac i, (forall v, resp v = (0, g * v)) ->
  (forall b, qtcurrent besselJ vj cct resp (FScalar 0) (NbInt b) None = Ok (QReal (dc b))) ->
  (forall b, qtcurrent besselJ vj cct resp (FList [q_freq cct 1]) (NbInt b) None = Ok (QRows [ac b])) -> (i < q_npts cct)%nat ->
  approaches (fun b => nth i (dc b) 0) (g * q_vb cct i) /\
  approaches (fun b => Re (nth i (ac b) (RtoC 0))) (g * (alpha * q_freq cct 1)) /\
  (forall b, Im (nth i (ac b) (RtoC 0)) = 0).
Proof. exact ohm. Qed.
Print Assumptions C106_ohm.

Example C106_case : exists dc ac, (forall b, qtcurrent besselJ pw1_vj pw1_cct (fun v => (0, 5 * v)) (FScalar 0) (NbInt b) None = Ok (QReal (dc b))) /\
  (forall b, qtcurrent besselJ pw1_vj pw1_cct (fun v => (0, 5 * v)) (FList [3 / 10]) (NbInt b) None = Ok (QRows [ac b])) /\
  approaches (fun b => nth 2 (dc b) 0) (5 * INR 2) /\ approaches (fun b => Re (nth 2 (ac b) (RtoC 0))) (5 * (2 * (3 / 10))).
Proof.
  exists (fun b => match qtcurrent besselJ pw1_vj pw1_cct (fun v => (0, 5 * v)) (FScalar 0) (NbInt b) None with Ok (QReal r) => r | _ => [] end).
  exists (fun b => match qtcurrent besselJ pw1_vj pw1_cct (fun v => (0, 5 * v)) (FList [3 / 10]) (NbInt b) None with Ok (QRows [r]) => r | _ => [] end).
  assert (E1 : forall b, qtcurrent besselJ pw1_vj pw1_cct (fun v => (0, 5 * v)) (FScalar 0) (NbInt b) None = Ok (QReal (match qtcurrent besselJ pw1_vj pw1_cct (fun v => (0, 5 * v)) (FScalar 0) (NbInt b) None with Ok (QReal r) => r | _ => [] end))).
  { intros b. destruct (qt_dc_runs pw1_vj pw1_cct (fun v => (0, 5 * v)) (NbInt b) (pw1_args b)) as [row E]. now rewrite E. }
  assert (E2 : forall b, qtcurrent besselJ pw1_vj pw1_cct (fun v => (0, 5 * v)) (FList [3 / 10]) (NbInt b) None = Ok (QRows [match qtcurrent besselJ pw1_vj pw1_cct (fun v => (0, 5 * v)) (FList [3 / 10]) (NbInt b) None with Ok (QRows [r]) => r | _ => [] end])).
  { intros b. destruct (qt_ac_runs pw1_vj pw1_cct (fun v => (0, 5 * v)) (NbInt b) (3 / 10) (pw1_args b)) as [row E]. now rewrite E. }
  split; [exact E1|]. split; [exact E2|].
  destruct (C106_ohm pw1_vj pw1_cct (fun v => (0, 5 * v)) 2 eq_refl eq_refl ltac:(cbn; lra) ltac:(intros i _; reflexivity) 5 _ _ 2%nat (fun v => eq_refl) E1 E2 ltac:(cbn; lia)) as (H1 & H2 & _). split; assumption.
Qed.
