(** Property C161: the drive level of a junction with a dominant first photon step.

    The vocabulary is in Spec_Rise.v, Spec_Known.v and Spec_ExpData.v.  [find_alpha],
    [recover_zemb] and [qtcurrent] are models of functions of the package, here with the
    Bessel functions of Bessel.v. *)
From Coq Require Import List ZArith Lia Bool Reals Lra Psatz.
From Coquelicot Require Import Complex.
From Verif Require Proof_Converge.
From Verif Require Import Base Bessel Float Model_QtCurrent Model_Tucker Model_ExpData Spec_QtCurrent Spec_QtApi Spec_ExpData Spec_Known Spec_Rise Properties_Power Proof_Known Proof_Rise Proof_Rise2.
Import ListNotations.
Open Scope list_scope.
Open Scope R_scope.
Local Notation length := List.length.

(** ** C161 *)
(** The direct current rises with the drive level. *)
Theorem C161_rises : forall idc vph b v x y, (1 <= b)%nat -> first_step idc vph b v -> 0 <= x -> x < y -> y <= 9 / 4 -> dc_current idc vph b v x < dc_current idc vph b v y.
Proof. intros idc vph b v x y B F X XY Y. rewrite !dc_is. exact (rising idc vph v b B F x y X XY Y). Qed.
Print Assumptions C161_rises.
(** So does what qtcurrent returns for one tone, from drive level x to drive level y. *)
Theorem C161_qtcurrent : forall vj vj' cct resp x y b row row' i, q_num_f cct = 1%nat -> q_num_p cct = 1%nat -> / 10000 < q_freq cct 1 ->
  (forall i, (i < q_npts cct)%nat -> vj 1%nat 1%nat i = RtoC (x * q_freq cct 1)) -> (forall i, (i < q_npts cct)%nat -> vj' 1%nat 1%nat i = RtoC (y * q_freq cct 1)) ->
  qtcurrent besselJ vj cct resp (FScalar 0) (NbInt b) None = Ok (QReal row) -> qtcurrent besselJ vj' cct resp (FScalar 0) (NbInt b) None = Ok (QReal row') ->
  (i < q_npts cct)%nat -> (1 <= b)%nat -> first_step (fun v => Im (resp v)) (q_freq cct 1) b (q_vb cct i) -> 0 <= x -> x < y -> y <= 9 / 4 ->
  nth i row 0 < nth i row' 0.
Proof. exact qt_rises. Qed.
Print Assumptions C161_qtcurrent.
(** The search for the drive level undoes the pumping: from the currents at the drive levels t
    of the list P it finds these drive levels. *)
Theorem C161_finds : forall idc vph amax nb (P : list (R * R)), (1 <= nb)%nat -> 0 < amax <= 3 / 2 ->
  (forall v t, In (v, t) P -> first_step idc vph nb v /\ 0 <= t <= amax) ->
  exists l, find_alpha besselJ idc (map fst P) (map (fun p => dc_current idc vph nb (fst p) (snd p)) P) vph amax nb = Ok l /\
    length l = length P /\ forall k, (k < length P)%nat -> Rabs (nth k l 0 - snd (nth k P (0, 0))) <= amax / 2 ^ 16.
Proof. exact inverts. Qed.
Print Assumptions C161_finds.
(** A current i that is not exactly that of the drive level t: the level that is found is, up to
    the resolution, a level s that explains i, and s is near t if i is near the current of t. *)
Theorem C161_inexact : forall idc v i vph amax nb l k, length v = length i -> find_alpha besselJ idc v i vph amax nb = Ok l -> (k < length v)%nat -> (1 <= nb)%nat ->
  first_step idc vph nb (nth k v 0) -> 0 < amax <= 3 / 2 -> idc (nth k v 0) <= nth k i 0 <= dc_current idc vph nb (nth k v 0) amax ->
  exists s, 0 <= s <= amax /\ dc_current idc vph nb (nth k v 0) s = nth k i 0 /\ Rabs (nth k l 0 - s) <= amax / 2 ^ 16 /\
    forall t, 0 <= t <= 3 / 2 -> gain idc vph (nth k v 0) 0 / 14 * Rabs (s ^ 2 - t ^ 2) <= Rabs (nth k i 0 - dc_current idc vph nb (nth k v 0) t).
Proof. exact first_noise. Qed.
Print Assumptions C161_inexact.
(** Data measured with a circuit of the grid: the recovery returns a circuit, and at the drive
    levels al this circuit explains the voltages across the junction. *)
Theorem C161_recovers : forall idc ikk voltage current vph q lo hi i0 j0 Vs M,
  length voltage = length current -> range_used q lo hi -> r_zemb q = None ->
  0 < vph -> 0 < r_alpha_max q <= 3 / 2 -> (1 <= r_num_b q)%nat -> 0 < fst (r_remb q) -> fst (r_remb q) <= snd (r_remb q) -> (forall x y, x <= y -> idc x <= idc y) ->
  (i0 <= 100)%nat -> (j0 <= 200)%nat ->
  let zs := grid_point (r_remb q) (r_xemb q) i0 j0 in
  let B := step_samples vph lo hi voltage current in
  let A := r_alpha_max q in
  let D := A / 2 ^ 16 in
  let K := (vph + 6 * M * Cmod zs) * D in
  let e := A * vph * K / (Vs - K) in
  B <> [] -> K < Vs -> pumped_with idc ikk vph (r_num_b q) B zs Vs M A D ->
  exists r al V, recover_zemb besselJ idc ikk voltage current vph q = Ok r /\ length al = length B /\
    (forall k, (k < length B)%nat -> exists a, Rabs (nth k al 0 - a) <= D /\ dc_current idc vph (r_num_b q) (fst (nth k B (0, 0))) a = snd (nth k B (0, 0)) /\ driven_to idc ikk vph (r_num_b q) zs Vs (fst (nth k B (0, 0))) a) /\
    rec_vt r = FV V /\ mismatch (map (fun p => rf_sample idc ikk vph (r_num_b q) (fst (fst p)) (snd p)) (List.combine B al)) (rec_zt r) V <= e ^ 2 /\
    (e ^ 2 <= 7 / 10 ^ 7 -> rec_fit r = true).
Proof. exact recovers. Qed.
Print Assumptions C161_recovers.

(** A junction with a gap: no current below it, the current of a resistor above. *)
Example C161_case_step : first_step gap_idc (1 / 2) 4 (3 / 4) /\ dc_current gap_idc (1 / 2) 4 (3 / 4) 1 < dc_current gap_idc (1 / 2) 4 (3 / 4) 2.
Proof. split; [exact gap_step|]. apply C161_rises; [lia|exact gap_step|lra|lra|lra]. Qed.
Example C161_case_finds : exists l, find_alpha besselJ gap_idc [3 / 4] [dc_current gap_idc (1 / 2) 4 (3 / 4) 1] (1 / 2) (3 / 2) 4 = Ok l /\ Rabs (nth 0 l 0 - 1) <= 3 / 2 / 2 ^ 16 /\
  gap_idc (3 / 4) <= dc_current gap_idc (1 / 2) 4 (3 / 4) 1 <= dc_current gap_idc (1 / 2) 4 (3 / 4) (3 / 2).
Proof.
  destruct (C161_finds gap_idc (1 / 2) (3 / 2) 4 [(3 / 4, 1)] ltac:(lia) ltac:(lra)) as (l & E & _ & H).
  - intros v t [X|[]]. inversion X. subst v t. split; [exact gap_step|lra].
  - exists l. split; [exact E|]. split; [exact (H 0%nat ltac:(cbn; lia))|]. split.
    + rewrite <- (cur_at_0 gap_idc (1 / 2) (3 / 4) 4). unfold cur. rewrite <- dc_is. left. apply C161_rises; [lia|exact gap_step|lra|lra|lra].
    + left. apply C161_rises; [lia|exact gap_step|lra|lra|lra].
Qed.
Definition gap_cct : qcct := {| q_num_f := 1; q_num_p := 1; q_npts := 1; q_freq := fun _ => 1 / 2; q_vb := fun _ => 3 / 4 |}.
Example C161_case_qtcurrent : exists row row', qtcurrent besselJ (fun _ _ _ => RtoC (1 * (1 / 2))) gap_cct (fun v => (0, gap_idc v)) (FScalar 0) (NbInt 4) None = Ok (QReal row) /\
  qtcurrent besselJ (fun _ _ _ => RtoC (2 * (1 / 2))) gap_cct (fun v => (0, gap_idc v)) (FScalar 0) (NbInt 4) None = Ok (QReal row') /\ nth 0 row 0 < nth 0 row' 0.
Proof.
  assert (AO : args_ok gap_cct (NbInt 4)). { unfold args_ok. cbn [gap_cct q_num_f q_num_p q_freq]. repeat split; try lia. intros f _; lra. }
  destruct (qt_dc_runs (fun _ _ _ => RtoC (1 * (1 / 2))) gap_cct (fun v => (0, gap_idc v)) (NbInt 4) AO) as [row E]. destruct (qt_dc_runs (fun _ _ _ => RtoC (2 * (1 / 2))) gap_cct (fun v => (0, gap_idc v)) (NbInt 4) AO) as [row' E']. exists row, row'. split; [exact E|]. split; [exact E'|].
  refine (C161_qtcurrent _ _ gap_cct _ 1 2 4 row row' 0%nat eq_refl eq_refl _ _ _ E E' _ _ gap_step _ _ _); try (cbn; lra); try (cbn; lia); intros; reflexivity.
Qed.
Definition gap_q : recparams :=
  {| r_fit_range := None; r_cut_low := None; r_cut_high := None; r_remb := (1, 2); r_xemb := (-1, 1); r_zemb := None; r_alpha_max := 3 / 2; r_num_b := 4 |}.
Definition gap_i : R := dc_current gap_idc (1 / 2) 4 (3 / 4) 1.
Definition gap_vs : R := Cmod (Cplus (RtoC (1 * (1 / 2))) (Cmult (RtoC 1) (rf_current gap_idc (fun _ => 0) (1 / 2) 4 (3 / 4) 1))).
Lemma gap_grid : grid_point (r_remb gap_q) (r_xemb gap_q) 0 100 = RtoC 1.
Proof. unfold grid_point, RtoC. cbn [gap_q r_remb r_xemb fst snd]. replace (INR 100) with 100 by (rewrite INR_IZR_INZ; f_equal; reflexivity). f_equal; [cbn [INR]|]; field. Qed.
Lemma gap_samples : step_samples (1 / 2) (1 / 4) (8 / 10) [3 / 4] [gap_i] = [(3 / 4, gap_i)].
Proof. unfold step_samples. cbn [List.combine filter fst]. repeat destruct Rle_dec; try lra; reflexivity. Qed.
Lemma gap_source : 1 / 2 <= gap_vs.
Proof.
  assert (P := rf_absorbs gap_idc (fun _ => 0) (1 / 2) 4 (3 / 4) 1 ltac:(lra) gap_mono ltac:(lia)). assert (Q := first_slope gap_idc (1 / 2) 4 (3 / 4) ltac:(lra) gap_mono gap_step). specialize (P Q ltac:(lra)).
  unfold gap_vs. set (w := rf_current _ _ _ _ _ _) in *. eapply Rle_trans; [|apply Proof_Converge.Re_Cmod]. eapply Rle_trans; [|apply Rle_abs]. unfold Re, Cplus, Cmult, RtoC in *. cbn [fst snd]. lra.
Qed.
Example C161_case : let D := 3 / 2 / 2 ^ 16 in pumped_with gap_idc (fun _ => 0) (1 / 2) 4 [(3 / 4, gap_i)] (RtoC 1) gap_vs 3 (3 / 2) D /\
  exists r, recover_zemb besselJ gap_idc (fun _ => 0) [3 / 4] [gap_i] (1 / 2) gap_q = Ok r /\ rec_fit r = true.
Proof.
  intros D. assert (D0 : 0 < D <= 23 / 1000000) by (unfold D; cbn [pow]; lra). assert (VS := gap_source).
  assert (PW : pumped_with gap_idc (fun _ => 0) (1 / 2) 4 [(3 / 4, gap_i)] (RtoC 1) gap_vs 3 (3 / 2) D).
  { intros v i [E|[]]. inversion E. subst v i. split; [exact gap_step|]. split.
    - intros n Hn. split; [|rewrite Rabs_R0; lra]. assert (L : -4 <= IZR n <= 4) by (split; apply IZR_le; lia). destruct (Rlt_dec (-1) (3 / 4 + IZR n * (1 / 2))), (Rlt_dec (3 / 4 + IZR n * (1 / 2)) 1); first [rewrite gap_in by lra; rewrite Rabs_R0; lra | rewrite gap_out by lra; apply Rabs_le; lra].
    - exists 1. split; [lra|]. split; reflexivity. }
  split; [exact PW|]. destruct (C161_recovers gap_idc (fun _ => 0) [3 / 4] [gap_i] (1 / 2) gap_q (1 / 4) (8 / 10) 0 100 gap_vs 3) as (r & al & V & E & _ & _ & _ & _ & FIT).
  - reflexivity.
  - right. repeat split.
  - reflexivity.
  - lra.
  - cbn [gap_q r_alpha_max]. lra.
  - cbn [gap_q r_num_b]. lia.
  - cbn [gap_q r_remb fst]. lra.
  - cbn [gap_q r_remb fst snd]. lra.
  - exact gap_mono.
  - lia.
  - lia.
  - rewrite gap_samples. discriminate.
  - rewrite gap_grid, Cmod_1. cbn [gap_q r_alpha_max]. fold D. lra.
  - rewrite gap_grid, gap_samples. cbn [gap_q r_alpha_max r_num_b]. fold D. exact PW.
  - exists r. split; [exact E|]. apply FIT. rewrite gap_grid, Cmod_1. cbn [gap_q r_alpha_max]. fold D. clearbody D. clear - D0 VS. set (K := (1 / 2 + 6 * 3 * 1) * D). assert (KB : 0 <= K <= 43 / 100000) by (unfold K; lra). clearbody K.
    assert (X : 0 <= 3 / 2 * (1 / 2) * K / (gap_vs - K) <= 7 / 10000).
    { split; [apply Rmult_le_pos; [lra|left; apply Rinv_0_lt_compat; lra]|]. apply Rmult_le_reg_r with (gap_vs - K); [lra|]. unfold Rdiv at 1. rewrite Rmult_assoc, Rinv_l by lra. lra. }
    apply Rle_trans with ((7 / 10000) ^ 2); [apply pow_incr; exact X|lra].
Qed.
