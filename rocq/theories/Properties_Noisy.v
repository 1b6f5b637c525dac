(** Property C163: the recovery of a circuit of the search range from inexact currents.

    The vocabulary is in Spec_Noisy.v, Spec_Rise.v, Spec_Known.v and Spec_ExpData.v.
    [recover_zemb] is the model of the recovery (Model_ExpData.v), here with the Bessel functions
    of Bessel.v. *)
From Coq Require Import List ZArith Lia Bool Reals Lra Psatz.
From Coquelicot Require Import Complex.
From Verif Require Import Base Bessel Float Model_Tucker Model_ExpData Spec_ExpData Spec_Known Proof_Known Spec_Rise Proof_Rise Proof_Rise2 Spec_Noisy Proof_Noisy.
From Verif Require Proof_Converge.
Import ListNotations.
Open Scope R_scope.
Local Notation length := List.length.

(** ** C163 *)
(** Currents that are off by at most d, measured with any circuit of the search range: the
    recovery returns, its drive levels are off by at most D, and its circuit explains the
    voltages across the junction at these levels up to e. *)
Theorem C163_recovers : forall idc ikk voltage current vph q lo hi zs Vs M d g a0,
  length voltage = length current -> range_used q lo hi -> r_zemb q = None ->
  0 < vph -> 0 < r_alpha_max q <= 3 / 2 -> (1 <= r_num_b q)%nat -> 0 < fst (r_remb q) -> in_range (r_remb q) (r_xemb q) zs -> (forall x y, x <= y -> idc x <= idc y) -> 0 < g -> 0 < a0 ->
  let B := step_samples vph lo hi voltage current in
  let A := r_alpha_max q in
  let D := level_error A d g a0 in
  let K := (vph + 6 * M * Cmod zs) * D + 6 * M * A * half_cell (r_remb q) (r_xemb q) in
  let e := A * vph * K / (Vs - K) in
  B <> [] -> K < Vs -> pumped_about idc ikk vph (r_num_b q) B zs Vs M A D d g a0 ->
  exists r al V, recover_zemb besselJ idc ikk voltage current vph q = Ok r /\ length al = length B /\
    (forall k, (k < length B)%nat -> exists a, Rabs (nth k al 0 - a) <= D /\ driven_to idc ikk vph (r_num_b q) zs Vs (fst (nth k B (0, 0))) a) /\
    rec_vt r = FV V /\ mismatch (map (fun p => rf_sample idc ikk vph (r_num_b q) (fst (fst p)) (snd p)) (List.combine B al)) (rec_zt r) V <= e ^ 2 /\
    (e ^ 2 <= 7 / 10 ^ 7 -> rec_fit r = true).
Proof. exact noisy. Qed.
Print Assumptions C163_recovers.
(** Every circuit of the search range is within half a cell of the grid. *)
Theorem C163_near : forall remb xemb zs, in_range remb xemb zs -> exists i j, (i <= 100)%nat /\ (j <= 200)%nat /\ Cmod (Cminus (grid_point remb xemb i j) zs) <= half_cell remb xemb.
Proof. exact nearest. Qed.
Print Assumptions C163_near.

(** A current that is off by 3/10^7, and a resistance between two points of the grid. *)
Definition off_q : recparams :=
  {| r_fit_range := None; r_cut_low := None; r_cut_high := None; r_remb := (1, 1 + 1 / 10000); r_xemb := (- (1 / 10000), 1 / 10000); r_zemb := None; r_alpha_max := 3 / 2; r_num_b := 4 |}.
Definition off_zs : C := RtoC (1 + 1 / 30000).
Definition off_i : R := dc_current gap_idc (1 / 2) 4 (3 / 4) 1 + 3 / 10 ^ 7.
Definition off_vs : R := Cmod (Cplus (RtoC (1 * (1 / 2))) (Cmult off_zs (rf_current gap_idc (fun _ => 0) (1 / 2) 4 (3 / 4) 1))).
Lemma off_samples : step_samples (1 / 2) (1 / 4) (8 / 10) [3 / 4] [off_i] = [(3 / 4, off_i)].
Proof. unfold step_samples. cbn [List.combine filter fst]. repeat destruct Rle_dec; try lra; reflexivity. Qed.
Lemma off_source : 1 / 2 <= off_vs.
Proof.
  assert (P := rf_absorbs gap_idc (fun _ => 0) (1 / 2) 4 (3 / 4) 1 ltac:(lra) gap_mono ltac:(lia)). assert (Q := first_slope gap_idc (1 / 2) 4 (3 / 4) ltac:(lra) gap_mono gap_step). specialize (P Q ltac:(lra)).
  unfold off_vs, off_zs. set (w := rf_current _ _ _ _ _ _) in *. eapply Rle_trans; [|apply Proof_Converge.Re_Cmod]. eapply Rle_trans; [|apply Rle_abs]. unfold Re, Cplus, Cmult, RtoC in *. cbn [fst snd]. nra.
Qed.
Example C163_case : let D := level_error (3 / 2) (4 / 10 ^ 7) (5 / 4) 1 in
  pumped_about gap_idc (fun _ => 0) (1 / 2) 4 [(3 / 4, off_i)] off_zs off_vs 3 (3 / 2) D (4 / 10 ^ 7) (5 / 4) 1 /\
  (forall i j, grid_point (r_remb off_q) (r_xemb off_q) i j <> off_zs) /\
  exists r, recover_zemb besselJ gap_idc (fun _ => 0) [3 / 4] [off_i] (1 / 2) off_q = Ok r /\ rec_fit r = true.
Proof.
  intros D. assert (D0 : 0 < D <= 275 / 10 ^ 7) by (unfold D, level_error; cbn [pow]; lra). assert (VS := off_source).
  assert (PW : pumped_about gap_idc (fun _ => 0) (1 / 2) 4 [(3 / 4, off_i)] off_zs off_vs 3 (3 / 2) D (4 / 10 ^ 7) (5 / 4) 1).
  { intros v i [E|[]]. inversion E. subst v i. exists 1. split; [exact gap_step|]. split; [destruct gap_pairs as (E0 & E1 & _); unfold gain; rewrite E0, E1; lra|]. split.
    - intros n Hn. split; [|rewrite Rabs_R0; lra]. assert (L : -4 <= IZR n <= 4) by (split; apply IZR_le; lia). destruct (Rlt_dec (-1) (3 / 4 + IZR n * (1 / 2))), (Rlt_dec (3 / 4 + IZR n * (1 / 2)) 1); first [rewrite gap_in by lra; rewrite Rabs_R0; lra | rewrite gap_out by lra; apply Rabs_le; lra].
    - split; [lra|]. split; [lra|]. split; [|reflexivity]. unfold off_i. apply Rabs_le. lra. }
  split; [exact PW|]. split.
  { intros i j E. assert (E1 : Re (grid_point (r_remb off_q) (r_xemb off_q) i j) = 1 + 1 / 30000) by (rewrite E; reflexivity). unfold Re, grid_point in E1. cbn [off_q r_remb fst snd] in E1. assert (E2 : 3 * INR i = 100) by lra. rewrite INR_IZR_INZ in E2. assert (E3 : (3 * Z.of_nat i = 100)%Z) by (apply eq_IZR; rewrite mult_IZR; lra). lia. }
  assert (CZ : Cmod off_zs <= 10001 / 10000) by (unfold off_zs; rewrite Cmod_R; apply Rabs_le; lra). assert (CZ0 := Cmod_ge_0 off_zs).
  set (K := (1 / 2 + 6 * 3 * Cmod off_zs) * D + 6 * 3 * (3 / 2) * half_cell (r_remb off_q) (r_xemb off_q)).
  assert (KB : 0 <= K <= 54 / 100000). { unfold K, half_cell. cbn [off_q r_remb r_xemb fst snd]. assert (0 <= Cmod off_zs * D <= 10001 / 10000 * (275 / 10 ^ 7)) by (split; [apply Rmult_le_pos; lra|apply Rmult_le_compat; lra]). lra. }
  destruct (C163_recovers gap_idc (fun _ => 0) [3 / 4] [off_i] (1 / 2) off_q (1 / 4) (8 / 10) off_zs off_vs 3 (4 / 10 ^ 7) (5 / 4) 1) as (r & al & V & E & _ & _ & _ & _ & FIT).
  - reflexivity.
  - right. repeat split.
  - reflexivity.
  - lra.
  - cbn [off_q r_alpha_max]. lra.
  - cbn [off_q r_num_b]. lia.
  - cbn [off_q r_remb fst]. lra.
  - unfold in_range, off_zs, RtoC, Re, Im. cbn [off_q r_remb r_xemb fst snd]. lra.
  - exact gap_mono.
  - lra.
  - lra.
  - rewrite off_samples. discriminate.
  - cbn [off_q r_alpha_max]. fold D. fold off_q. change (K < off_vs). lra.
  - rewrite off_samples. exact PW.
  - exists r. split; [exact E|]. apply FIT. change ((3 / 2 * (1 / 2) * K / (off_vs - K)) ^ 2 <= 7 / 10 ^ 7). clearbody K. clear - KB VS.
    assert (X : 0 <= 3 / 2 * (1 / 2) * K / (off_vs - K) <= 82 / 100000).
    { split; [apply Rmult_le_pos; [lra|left; apply Rinv_0_lt_compat; lra]|]. apply Rmult_le_reg_r with (off_vs - K); [lra|]. unfold Rdiv at 1. rewrite Rmult_assoc, Rinv_l by lra. lra. }
    apply Rle_trans with ((82 / 100000) ^ 2); [apply pow_incr; exact X|lra].
Qed.
