(** Property C159: the recovery of the circuit that has produced the data.

    The vocabulary is in Spec_Known.v and Spec_ExpData.v.  [recover_zemb] is the model of the
    recovery (Model_ExpData.v), here with the Bessel functions of Bessel.v. *)
From Coq Require Import List ZArith Lia Bool Reals Lra Psatz.
From Coquelicot Require Import Complex.
From Verif Require Import Base Bessel Float Model_Tucker Model_ExpData Spec_ExpData Spec_Known Proof_Known Proof_KnownCase.
Import ListNotations.
Open Scope R_scope.
Local Notation length := List.length.

(** ** C159 *)
(** A source behind an impedance of the grid has produced the data.  At drive levels al, within
    the resolution of the search of those of the measurement, the recovered circuit explains the voltages across the junction up to the error e that the resolution of the
    search for the drive level leaves, and the fit is reported good if that is small. *)
Theorem C159_explains : forall idc ikk voltage current vph q r lo hi i0 j0 Vs M T,
  length voltage = length current -> range_used q lo hi -> r_zemb q = None -> recover_zemb besselJ idc ikk voltage current vph q = Ok r ->
  0 < vph -> 0 < r_alpha_max q -> (1 <= r_num_b q)%nat -> 0 < fst (r_remb q) -> fst (r_remb q) <= snd (r_remb q) -> (forall x y, x <= y -> idc x <= idc y) ->
  (i0 <= 100)%nat -> (j0 <= 200)%nat -> T <= 3 / 2 ->
  let zs := grid_point (r_remb q) (r_xemb q) i0 j0 in
  let B := step_samples vph lo hi voltage current in
  let D := r_alpha_max q / 2 ^ 16 in
  let K := (vph + 6 * M * Cmod zs) * D in
  let e := T * vph * K / (Vs - K) in
  K < Vs -> measured_with idc ikk vph q B zs Vs M T D ->
  exists al V, length al = length B /\ (forall k, (k < length B)%nat -> exists a, D < a <= T - D /\ measured_at idc ikk vph q zs Vs (fst (nth k B (0, 0))) (snd (nth k B (0, 0))) a /\ Rabs (nth k al 0 - a) <= D) /\
    rec_vt r = FV V /\ mismatch (map (fun p => rf_sample idc ikk vph (r_num_b q) (fst (fst p)) (snd p)) (List.combine B al)) (rec_zt r) V <= e ^ 2 /\
    (e ^ 2 <= 7 / 10 ^ 7 -> rec_fit r = true).
Proof. exact known. Qed.
Print Assumptions C159_explains.

(** The current at the drive frequency changes little with the drive level. *)
Theorem C159_smooth : forall idc ikk vph b V M x y, bounded_steps idc ikk vph b M V ->
  Cmod (Cminus (rf_current idc ikk vph b V x) (rf_current idc ikk vph b V y)) <= 6 * M * Rabs (x - y).
Proof. exact rf_smooth. Qed.
Print Assumptions C159_smooth.

(** A junction whose current does not fall with the voltage takes power from the source. *)
Theorem C159_absorbs : forall idc ikk vph b V a, 0 < vph -> (forall x y, x <= y -> idc x <= idc y) -> (1 <= b)%nat -> idc (V - vph) < idc (V + vph) -> 0 < a <= 3 / 2 ->
  0 < Re (rf_current idc ikk vph b V a).
Proof. exact rf_absorbs. Qed.
Print Assumptions C159_absorbs.

(** Two samples, at different drive levels, of a junction behind a resistance of 1. *)
Example C159_case : exists r, recover_zemb besselJ kn_idc kn_ikk kn_v kn_i 1 kn_q = Ok r /\ rec_fit r = true /\ length (step_samples 1 (1 / 4) (8 / 10) kn_v kn_i) = 2%nat /\
  let D := r_alpha_max kn_q / 2 ^ 16 in
  measured_with kn_idc kn_ikk 1 kn_q (step_samples 1 (1 / 4) (8 / 10) kn_v kn_i) (grid_point (r_remb kn_q) (r_xemb kn_q) 0 100) kn_vs 5 (1 / 2 + D) D /\
  0 < Re (rf_current kn_idc kn_ikk 1 1 (6 / 10) (1 / 4)).
Proof.
  destruct kn_runs as [r E]. exists r. split; [exact E|]. assert (VS : 72 / 100 <= kn_vs <= 78 / 100) by (unfold kn_vs; pose proof jh_near; lra).
  assert (D0 : 0 < 1 / 2 / 2 ^ 16 <= 1 / 100000) by (cbn [pow]; lra).
  assert (MW : measured_with kn_idc kn_ikk 1 kn_q (step_samples 1 (1 / 4) (8 / 10) kn_v kn_i) (grid_point (r_remb kn_q) (r_xemb kn_q) 0 100) kn_vs 5 (1 / 2 + r_alpha_max kn_q / 2 ^ 16) (r_alpha_max kn_q / 2 ^ 16)).
  { intros v i IN. destruct (kn_samples v i IN) as (A & B & a & HA & F & DR). rewrite kn_grid. cbn [kn_q r_alpha_max r_num_b]. split; [exact A|]. split; [exact B|]. exists a. split; [lra|]. split; assumption. }
  split; [|split; [now rewrite kn_step|split; [exact MW|]]].
  - destruct (C159_explains kn_idc kn_ikk kn_v kn_i 1 kn_q r (1 / 4) (8 / 10) 0 100 kn_vs 5 (1 / 2 + r_alpha_max kn_q / 2 ^ 16)) as (al & V & _ & _ & _ & _ & FIT).
    + reflexivity.
    + right. repeat split.
    + reflexivity.
    + exact E.
    + lra.
    + cbn [kn_q r_alpha_max]. lra.
    + cbn [kn_q r_num_b]. lia.
    + cbn [kn_q r_remb fst]. lra.
    + cbn [kn_q r_remb fst snd]. lra.
    + exact kn_mono.
    + lia.
    + lia.
    + cbn [kn_q r_alpha_max]. lra.
    + rewrite kn_grid, Cmod_1. cbn [kn_q r_alpha_max]. lra.
    + exact MW.
    + apply FIT. rewrite kn_grid, Cmod_1. cbn [kn_q r_alpha_max]. set (D := 1 / 2 / 2 ^ 16) in *. clearbody D.
      assert (X : 0 <= (1 / 2 + D) * 1 * ((1 + 6 * 5 * 1) * D) / (kn_vs - (1 + 6 * 5 * 1) * D) <= 5 / 10000).
      { split; [apply Rmult_le_pos; [nra|left; apply Rinv_0_lt_compat; lra]|]. apply Rmult_le_reg_r with (kn_vs - (1 + 6 * 5 * 1) * D); [lra|]. unfold Rdiv at 1. rewrite Rmult_assoc, Rinv_l by lra. nra. }
      set (e := _ / _) in *. clearbody e. apply Rle_trans with ((5 / 10000) ^ 2); [apply pow_incr; exact X|lra].
  - apply C159_absorbs; [lra|exact kn_mono|lia| |lra]. rewrite kn_at2, kn_below by lra. pose proof kn_g_near. lra.
Qed.

(** The recovered impedance need not be that of the circuit: one sample fits every circuit. *)
Theorem C159_refuted : ~ (forall idc ikk voltage current vph q r lo hi i0 j0 Vs M T,
  length voltage = length current -> range_used q lo hi -> r_zemb q = None -> recover_zemb besselJ idc ikk voltage current vph q = Ok r ->
  0 < vph -> 0 < r_alpha_max q -> (1 <= r_num_b q)%nat -> 0 < fst (r_remb q) -> fst (r_remb q) <= snd (r_remb q) -> (forall x y, x <= y -> idc x <= idc y) ->
  (i0 <= 100)%nat -> (j0 <= 200)%nat -> T <= 3 / 2 ->
  measured_with idc ikk vph q (step_samples vph lo hi voltage current) (grid_point (r_remb q) (r_xemb q) i0 j0) Vs M T (r_alpha_max q / 2 ^ 16) ->
  rec_zt r = grid_point (r_remb q) (r_xemb q) i0 j0).
Proof.
  intros H. destruct kn_runs1 as [r E].
  assert (G : forall i z, (i <= 100)%nat -> 0 <= z -> grid_point (r_remb kn_q) (r_xemb kn_q) i 100 = RtoC z -> rec_zt r = RtoC z).
  { intros i z I Z EG. rewrite <- EG. apply (H kn_idc kn_ikk kn_v1 kn_i1 1 kn_q r (1 / 4) (8 / 10) i 100%nat (1 / 2 + 4 * z * jh) 5 1); try (cbn [kn_q r_alpha_max r_num_b r_remb fst snd]; lra); try reflexivity; try assumption; try lia.
    - right. repeat split.
    - exact kn_mono.
    - rewrite EG, kn_step1. cbn [kn_q r_alpha_max]. now apply kn_one. }
  assert (A := G 0%nat 1 ltac:(lia) ltac:(lra) kn_grid). assert (B := G 100%nat 2 ltac:(lia) ltac:(lra) kn_grid2). rewrite A in B. apply RtoC_inj in B. lra.
Qed.
Print Assumptions C159_refuted.
