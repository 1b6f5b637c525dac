(** A measurement whose hot and cold files have been exchanged. *)
From Coq Require Import List ZArith Lia Lra Bool Arith Reals String.
From Coquelicot Require Import Complex.
From Verif Require Import Base Model_QtCurrent Spec_QtCurrent Float NumPy Spec_CleanData Proof_CleanData Model_CleanData Model_MathFn Spec_RespFn Model_RespFn Spec_IVData Model_IVData Spec_IFData Model_IFData
  Model_Tucker Model_ExpData Spec_ExpData Model_Objects Spec_Objects Spec_Objects2 Model_RecoverAll Model_PumpedAll Proof_Circuit Proof_IVModels Proof_NumPy Proof_IVLoad Proof_IVData Proof_IVCurve Proof_IVCurve2 Proof_IVCases Proof_IFNoise Proof_IFLoad Proof_IFLoad2 Proof_IFShot Proof_IFCases
  Proof_RespFn Proof_RespFn2 Proof_ExpData Proof_Recover2 Proof_Recover3 Proof_ExpCases Proof_Objects Proof_Objects2 Proof_Objects3 Proof_Objects4 Proof_PumpedAll.
Import ListNotations.
Local Notation length := List.length.
Open Scope list_scope.
Open Scope R_scope.

Section Case.
Variable minimize : (R * R -> R) -> R * R -> R * R.
Variable savgol : list R -> Z -> Z -> list R.
Variable J : nat -> R -> R.
Variable dspline : list R -> list R -> Z -> R -> R.
Hypothesis J0 : J 0%nat (3 / 2) <> 0.
Hypothesis J1 : J 1%nat (3 / 2) <> 0.
Hypothesis J2 : (J 0%nat (3 / 2)) ^ 2 <> 1.

Lemma exchanged_analysis dc : dc_vgap dc = 3 / 10 ^ 3 -> dc_offset dc = (0, 0) -> exists ph pc tn gain meta,
  if_data savgol insertion_argsort cold_file hot_file dc None (if_options full) = Ok (if_volts, ph, pc, tn, gain, 3%nat, meta) /\ (forall k, (k < 7)%nat -> nth k ph 0 < nth k pc 0).
Proof.
  intros G O. assert (GP : 0 < dc_vgap dc) by lra. rewrite if_data_eq by exact insertion_sorts.
  destruct (if_load dc 1 7 G O) as [V [H [LH [EV [LPH NH]]]]]. destruct (if_load dc 2 14 G O) as [V' [P [LC [EV' [LPC NC]]]]]. rewrite G, if_grid_list in EV, EV'. apply if_powers in NH; [|assumption]. apply if_powers in NC; [|assumption].
  unfold hot_file, cold_file. rewrite LH, LC. cbn [bind fst snd]. fold if_volts in EV, EV', NH, NC. subst V V'. unfold Proof_IFShot.calibration. cbn [if_options q_vshot full o_vshot].
  assert (AV : average H P = map (fun t => 3 / 2 + (21 / 2 - 3 / 2) * t / 2) if_volts) by (rewrite NH, NC; unfold average, if_volts; cbn [map zipwith]; do 7 (apply (f_equal2 (@cons R)); [field|]); reflexivity). rewrite AV.
  destruct (noise_total savgol dc (3 / 2) (21 / 2) G ltac:(lra)) as [n [c [l [fit [N CP]]]]]. cbv zeta in N. fold if_volts in N. rewrite N. cbn [rmap bind].
  destruct (best_requested if_volts (map (fun a => a * c) H) (map (fun a => a * c) P) (dc_vgap dc) (if_options full) 230 eq_refl ltac:(lra) ltac:(cbn; lra) ltac:(cbn; lra) ltac:(rewrite map_length; exact LPH) ltac:(rewrite map_length; exact LPC) (3 / 10 ^ 3) eq_refl ltac:(discriminate)) as [tn [gain [idx [FT SM]]]].
  rewrite G in SM. apply near_list in SM. subst idx. rewrite FT. cbn [bind]. destruct (amax_some if_volts ltac:(discriminate)) as [top T]. rewrite T. cbn [bind].
  do 5 eexists. split; [reflexivity|]. rewrite NH, NC. unfold if_volts. cbn [map]. intros k K. do 7 (destruct k as [|k]; [cbn [nth]; apply Rmult_lt_compat_r; lra|]). lia.
Qed.
Local Notation DC := (dc_data insertion_argsort minimize savgol (fun _ _ _ _ => 1) dspline).
Lemma exchanged_case : exists d u n, DC file None full = Ok d /\ pumped_all insertion_argsort savgol J (pumped_file J) d (Some cold_file) (Some hot_file) full = Ok u /\ x_if u = Some n /\
  dc_fgap (d_dc d) <> 0 /\ 0 < dc_vgap (d_dc d) /\ (forall k, (k < length (m_voltage n))%nat -> nth k (m_hot n) 0 <= nth k (m_cold n) 0) /\ c_gdb (m_summary n) = FNaN /\
  exists lo hi, range_used (rec_options full) lo hi /\ step_samples (230 * 10 ^ 9 / dc_fgap (d_dc d)) lo hi (x_voltage u) (x_current u) <> [].
Proof.
  destruct (full_case minimize savgol J J0 J1 J2 dspline) as (d & p & n0 & r & al & ED & EP & VG & DIF & _ & _ & _ & BN & _).
  destruct (dc_full minimize savgol dspline) as (d' & ED' & _ & G & _ & O & FG). assert (d' = d) by congruence. subst d'. clear ED'. apply pumped_agrees in EP; [|exact insertion_sorts..].
  destruct (all_inv _ _ _ _ _ _ _ _ _ EP) as [EV _]. cbn [x_voltage x_current lift_data] in EV.
  destruct (exchanged_analysis (d_dc d) G O) as (ph & pc & tn & gain & meta & EI & LT).
  assert (FP : dc_fgap (d_dc d) <> 0) by (rewrite FG; unfold sc_e, sc_h; lra). assert (RU : range_used (rec_options full) (25 / 100) (8 / 10)) by (left; reflexivity).
  assert (CAL : Model_Objects.calibration d = None) by (unfold Model_Objects.calibration; now rewrite DIF).
  destruct (pumped_returns insertion_argsort savgol J (pumped_file J) d (Some cold_file) (Some hot_file) full (u_voltage p) (u_current p) 230 insertion_sorts eq_refl FP VG) as (u & EU & XV & XI); try exact EV; [cbn; lra|cbn; lia|intros _; exists (25 / 100), (8 / 10); split; [exact RU|exact BN]|intros h c Eh Ec _; injection Eh as <-; injection Ec as <-; rewrite CAL; eexists; exact EI|].
  assert (XF : exists n, x_if u = Some n). { pose proof EU as E. unfold pumped_all in E. apply bind_ok in E as (f & Ef & E). apply bind_ok in E as (q & Er & E). apply bind_ok in E as ([V I] & EV' & E). apply bind_ok in E as (rd & ED' & E). apply bind_ok in E as (rec & EC & E). apply bind_ok in E as (g & EG & E). apply ok_inj in E. subst u. cbn [x_if].
    cbn [full o_analyze_if] in EG. fold full in EG. apply bind_ok in EG as ([[[[[[vh ph'] pc'] tn'] gain'] idx] cal] & E1 & EG). apply bind_ok in EG as (s & E2 & EG). eexists. symmetry. apply ok_inj in EG. exact EG. }
  destruct XF as [n XF]. exists d, u, n. split; [exact ED|]. split; [exact EU|]. split; [exact XF|]. split; [exact FP|]. split; [exact VG|].
  destruct (all_inv _ _ _ _ _ _ _ _ _ EU) as [_ HI]. destruct (HI n XF) as (h & c & Eh & Ec & E1 & _). injection Eh as <-. injection Ec as <-. rewrite CAL, EI in E1. injection E1 as M1 M2 M3 M4 M5 M6 M7.
  split; [rewrite <- M1, <- M2, <- M3; intros k K; apply Rlt_le, LT; exact K|]. split.
  - apply (all_cold insertion_argsort savgol J (pumped_file J) d (Some cold_file) (Some hot_file) full u n 230 insertion_sorts VG ltac:(cbn; lra) ltac:(cbn; lia) eq_refl ltac:(lra) ltac:(cbn; lra) EU XF).
    + rewrite <- M1, <- M2, <- M3; intros k K; apply Rlt_le, LT; exact K.
    + rewrite <- M2, <- M3, <- M6. apply LT. lia.
  - rewrite XV, XI. exists (25 / 100), (8 / 10). split; [exact RU|exact BN].
Qed.
End Case.
