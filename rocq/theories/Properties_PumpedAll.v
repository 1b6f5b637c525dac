(** Property C165: pumped data whose gain is not positive and whose best bias voltage is
    anywhere on the I-V curve (vocabulary in Spec_IVData.v, Spec_IFData.v and Spec_ExpData.v).
    The sort sorts; the Savitzky-Golay filter and the Bessel functions are arbitrary. *)
From Coq Require Import List ZArith Bool Reals Lra Lia String.
From Coquelicot Require Import Complex.
From Verif Require Import Base Float NumPy Spec_CleanData Spec_RespFn Model_CleanData Model_RespFn Spec_IVData Model_IVData Spec_IFData Model_IFData Model_Tucker Model_ExpData Spec_ExpData Model_Objects Spec_Objects Model_RecoverAll Model_PumpedAll
  Bessel Proof_CleanData Proof_IFShot Proof_BesselVal Proof_IVModels Proof_Objects2 Proof_ExpData Proof_Recover2 Proof_Objects3 Proof_Objects4 Proof_RecoverAll Proof_PumpedAll Proof_PumpedAll2.
Import ListNotations.
Open Scope R_scope.
Local Notation length := List.length.

(** Where the first model returns data, this one returns the same data. *)
Theorem C165_agrees : forall argsort savgol J m d hot cold o u,
  pumped_data argsort savgol J m d hot cold o = Ok u -> pumped_all argsort savgol J m d hot cold o = Ok (lift_data u).
Proof. exact pumped_agrees. Qed.
Print Assumptions C165_agrees.
(** The constructor returns whenever the I-V curve and the IF data can be read and some sample
    lies on the photon step. *)
Theorem C165_returns : forall argsort savgol J m d hot cold o V I f,
  sorting argsort -> o_freq o = Some f -> dc_fgap (d_dc d) <> 0 -> 0 < dc_vgap (d_dc d) -> 0 < o_vmax o -> (32 <= o_npts o)%nat ->
  iv_curve savgol argsort m (d_dc d) (iv_options o) = Ok (V, I) ->
  (o_analyze_iv o = true -> exists lo hi, range_used (rec_options o) lo hi /\ step_samples (f * 10 ^ 9 / dc_fgap (d_dc d)) lo hi V I <> []) ->
  (forall h c, hot = Some h -> cold = Some c -> o_analyze_if o = true -> exists r, if_data savgol argsort h c (d_dc d) (Model_Objects.calibration d) (if_options o) = Ok r) ->
  exists u, pumped_all argsort savgol J m d hot cold o = Ok u /\ x_voltage u = V /\ x_current u = I.
Proof. exact pumped_returns. Qed.
Print Assumptions C165_returns.
(** What is reported at the best bias voltage.  The impedance at the IF is the normal
    resistance over the slope of the line fitted to up to ten samples of the I-V curve from
    there on; at the last sample there is no such line and the "slope" is i / (2 v). *)
Theorem C165_best : forall argsort savgol J m d hot cold o u n,
  sorting argsort -> 0 < dc_vgap (d_dc d) -> 0 < o_vmax o -> (2 <= o_npts o)%nat -> pumped_all argsort savgol J m d hot cold o = Ok u -> x_if u = Some n ->
  let V := x_voltage u in let I := x_current u in let s := m_summary n in
  (m_best n < length (m_voltage n))%nat /\ c_tn s = nth (m_best n) (m_tn n) FNaN /\ c_gain s = nth (m_best n) (m_gain n) FNaN /\ c_v s = nth (m_best n) (m_voltage n) 0 /\
  (forall x, c_gain s = FV x -> (0 < x -> exists d, c_gdb s = FV d /\ Rpower 10 (d / 10) = x) /\ (x = 0 -> c_gdb s = FNInf) /\ (x < 0 -> c_gdb s = FNaN)) /\
  exists k, smallest (map (fun x => Rabs (x - c_v s)) V) k /\
    ((S k < length V)%nat -> exists a b, best_line (firstn 10 (skipn k (List.combine V I))) a b /\ c_zj s = fdiv (FV (dc_rn (d_dc d))) (FV a)) /\
    (S k = length V -> c_zj s = fdiv (FV (dc_rn (d_dc d))) (FV (nth k I 0 / (2 * nth k V 0)))).
Proof. exact all_best. Qed.
Print Assumptions C165_best.
(** If the hot load gives no more power than the cold one, the gain in decibels is minus
    infinity or NaN. *)
Theorem C165_cold : forall argsort savgol J m d hot cold o u n f,
  sorting argsort -> 0 < dc_vgap (d_dc d) -> 0 < o_vmax o -> (2 <= o_npts o)%nat -> o_freq o = Some f -> 0 < f -> 0 < o_t_cold o < o_t_hot o ->
  pumped_all argsort savgol J m d hot cold o = Ok u -> x_if u = Some n -> (forall k, (k < length (m_voltage n))%nat -> nth k (m_hot n) 0 <= nth k (m_cold n) 0) ->
  (c_gdb (m_summary n) = FNInf \/ c_gdb (m_summary n) = FNaN) /\ (nth (m_best n) (m_hot n) 0 < nth (m_best n) (m_cold n) 0 -> c_gdb (m_summary n) = FNaN).
Proof. exact all_cold. Qed.
Print Assumptions C165_cold.
(** The measurement of C132, and the same measurement with the hot and the cold file
    exchanged. *)
Example C165_case : forall minimize savgol dspline, exists d p,
  dc_data insertion_argsort minimize savgol (fun _ _ _ _ => 1) dspline file None full = Ok d /\ pumped_data insertion_argsort savgol besselJ (pumped_file besselJ) d (Some hot_file) (Some cold_file) full = Ok p.
Proof. intros minimize savgol dspline. destruct bessel_3_2 as (H0 & H1 & H2). destruct (full_case minimize savgol besselJ H0 H1 H2 dspline) as (d & p & _ & _ & _ & E1 & E2 & _). exists d, p. auto. Qed.
Example C165_exchanged : forall minimize savgol dspline, exists d u n,
  dc_data insertion_argsort minimize savgol (fun _ _ _ _ => 1) dspline file None full = Ok d /\ pumped_all insertion_argsort savgol besselJ (pumped_file besselJ) d (Some cold_file) (Some hot_file) full = Ok u /\ x_if u = Some n /\
  dc_fgap (d_dc d) <> 0 /\ 0 < dc_vgap (d_dc d) /\ (forall k, (k < length (m_voltage n))%nat -> nth k (m_hot n) 0 <= nth k (m_cold n) 0) /\ c_gdb (m_summary n) = FNaN /\
  exists lo hi, range_used (rec_options full) lo hi /\ step_samples (230 * 10 ^ 9 / dc_fgap (d_dc d)) lo hi (x_voltage u) (x_current u) <> [].
Proof. intros minimize savgol dspline. destruct bessel_3_2 as (H0 & H1 & H2). exact (exchanged_case minimize savgol besselJ dspline H0 H1 H2). Qed.
(** The values at the last sample of an I-V curve. *)
Example C165_last_sample : exists s, if_summary_all [1; 2] [1; 3] [2] [FNaN] [FV (-1)] 0 3 = Ok s /\ c_zj s = FV 4.
Proof.
  destruct (rising_summary [1; 2] [1; 3] [2] [FNaN] [FV (-1)] 0 3) as (s & k & E & _ & _ & EV & _ & SM & _ & EZ); try (cbn; lia); try reflexivity; try discriminate.
  - intros i j IJ L. cbn in L. assert (i = 0%nat /\ j = 1%nat) as [-> ->] by lia. cbn. lra.
  - cbn. lra.
  - exists s. split; [exact E|]. cbn [nth] in EV. assert (K : k = 1%nat). { destruct SM as [L M]. cbn [map List.length] in *. specialize (M 1%nat ltac:(lia)). destruct k as [|[|k]]; [exfalso|reflexivity|lia]. cbn [nth] in M. try rewrite EV in M. replace (2 - 2) with 0 in M by lra. rewrite Rabs_R0 in M. rewrite Rabs_left in M; lra. }
    subst k. rewrite EZ by reflexivity. cbn [nth fdiv]. rewrite Proof_IVModels.Reqb_f by lra. f_equal. lra.
Qed.
