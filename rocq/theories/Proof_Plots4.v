(** Lemmas for the figures of the impedance recovery: the simulated curve and the error surface. *)
From Coq Require Import List ZArith Bool Arith Reals Lra Lia String.
From Coquelicot Require Import Complex.
From Verif Require Import Base Sums Round Float NumPy Model_CleanData Spec_CleanData Model_RespFn Spec_RespFn Spec_IVData Spec_IFData Model_IVData Model_IFData Model_MathFn Model_Tucker Model_ExpData Spec_ExpData Model_Objects Spec_Objects.
From Verif Require Import Model_QtCurrent Spec_QtCurrent Spec_QtApi Proof_QtCurrent Proof_QtCurrent2 Proof_QtApi Proof_QtApi2 Proof_QtWit.
From Verif Require Model_Circuit Model_HB Proof_HB.
From Verif Require Import Proof_Decay.
From Verif Require Import Proof_NumPy Proof_CleanData Proof_IVData Proof_IVCurve Proof_Objects Proof_Recover2 Proof_Recover3 Model_Misc Model_Plots Spec_Plots Proof_Plots.
Import ListNotations.
Open Scope R_scope.
Local Notation length := List.length.
Local Notation rising := Spec_RespFn.increasing.

Lemma circuit_built vph zt vt : exists c, recovered_circuit vph zt vt = Ok c /\ recovered_source vph zt vt (Model_HB.of_circ c) /\ Model_Circuit.c_vb c = sim_voltages /\ Model_Circuit.c_freq c = [0; vph].
Proof.
  unfold recovered_circuit, Model_Circuit.init. cbn [Model_Circuit.pynum_val existsb Model_Circuit.is_int andb].
  unfold Reqb at 1. destruct (Req_EM_T 1 1) as [_|N]; [|congruence]. cbn [orb guard bind]. unfold Rleb. destruct (Rle_dec 1 1) as [_|N]; [|exfalso; lra]. destruct (Rle_dec 1 201) as [_|N]; [|exfalso; lra]. destruct (Rle_dec 0 2) as [_|N]; [|exfalso; lra]. cbn [andb guard bind].
  change (Z.to_nat 1) with 1%nat. change (Z.to_nat 201) with 201%nat. cbn [Nat.add Nat.mul repeat].
  eexists. split; [reflexivity|].
  assert (EV : Model_Circuit.linspace 0 2 201 = sim_voltages).
  { unfold Model_Circuit.linspace, tab. apply map_ext_in. intros i Hi. apply in_seq in Hi. change (1 <? 201)%nat with true. cbn [andb Nat.sub]. replace (INR 200) with 200 by (rewrite INR_IZR_INZ; reflexivity). destruct (Nat.eqb_spec i 200) as [->|_]; [|field]. rewrite INR_IZR_INZ. change (Z.of_nat 200) with 200%Z. field. }
  split; [|split; [exact EV|reflexivity]]. unfold recovered_source, Model_HB.of_circ. cbn [Model_HB.h_q q_num_f q_num_p q_npts q_freq q_vb Model_HB.h_wvt Model_HB.h_vt Model_HB.h_zt].
  split; [reflexivity|]. split; [reflexivity|]. split; [reflexivity|]. split; [reflexivity|]. split.
  { intros i Hi. cbn [Model_Circuit.with_vt Model_Circuit.with_zt Model_Circuit.with_freq Model_Circuit.c_vb]. rewrite EV. unfold sim_voltages. rewrite (nth_map_in _ _ _ _ 0%nat) by (rewrite seq_length; exact Hi). now rewrite seq_nth by exact Hi. }
  split; [reflexivity|]. intros [|[|f]] [|[|p]]; split; try reflexivity; try (destruct f; reflexivity); try (destruct p; reflexivity); destruct f; destruct p; reflexivity.
Qed.

(** The dc current of one tone depends on the size of the voltage only. *)
Lemma one_tone_dc J vj cct resp num_b w : args_ok cct (NbInt num_b) -> q_num_f cct = 1%nat -> q_num_p cct = 1%nat -> / 10000 < q_freq cct 1 -> round4 w = 0 ->
  map Re (spec_row J vj cct resp (NbInt num_b) w) = Model_QtCurrent.tab (q_npts cct) (fun i => pumped_iv J (fun v => Im (resp v)) (q_freq cct 1) (Cmod (vj 1%nat 1%nat i) / q_freq cct 1) num_b (q_vb cct i)).
Proof.
  intros Ha HF HP Hf Hw. unfold spec_row. rewrite tab_map. apply tab_ext. intros i Hi. unfold freqs, tones. rewrite HF, HP. cbn [seq map nbtuple repeat Nat.sub nth list_max fold_right].
  rewrite tone_of_phase. rewrite dc_one_tone by assumption. cbn [Re RtoC fst]. unfold pumped_iv. rewrite fold_left_rsum, Rplus_0_l. fold (sym num_b). apply rsum_ext. intros k Hk. rewrite phase_factor_1. rewrite cut_in by (apply in_sym in Hk; assumption). unfold JA, jacobi_anger. rewrite Cmod_mult, Cmod_cis, Rmult_1_r, Cmod_R, pow2_abs. cbn [INR]. rewrite Rmult_1_l. reflexivity.
Qed.
Lemma hb_same_q J inv c resp nb mi st vj0 dp mode zj : Model_HB.h_q (Model_HB.r_cct (Model_HB.harmonic_balance J inv c resp nb mi st vj0 dp mode zj)) = Model_HB.h_q c.
Proof.
  unfold Model_HB.harmonic_balance. destruct (Model_HB.all_zero _ _ _); [reflexivity|]. destruct (negb _); [reflexivity|]. destruct (match vj0 with Some a => _ | None => _ end); [|reflexivity]. destruct (interpolate_respfn _ _ _); [|reflexivity]. destruct (Model_HB.run_newton _ _ _ _ _ _ _ _ _ _). reflexivity.
Qed.

Lemma pumped_same J idc idc' v a n b : (forall t, idc t = idc' t) -> pumped_iv J idc v a n b = pumped_iv J idc' v a n b.
Proof. intros H. unfold pumped_iv. rewrite !fold_left_rsum. f_equal. apply rsum_ext. intros k _. now rewrite H. Qed.
Section Recovery.
Variable argsort : list fl -> list nat.
Variable minimize : (R * R -> R) -> R * R -> R * R.
Variable savgol : list R -> Z -> Z -> list R.
Variable J : nat -> R -> R.
Variable spline dspline : list R -> list R -> Z -> R -> R.
Variable inv : nat -> (nat -> nat -> R) -> option (nat -> nat -> R).
Local Notation DC := (dc_data argsort minimize savgol spline dspline).
Local Notation PUMPED := (pumped_data argsort savgol J).
Variables (m0 : matrix) (f0 : option matrix) (o0 : options) (d : dcdata).
Hypothesis HD : DC m0 f0 o0 = Ok d.
Hypothesis HG : 0 < dc_vgap (d_dc d).
Hypothesis HM : 0 < o_vmax o0.
Hypothesis HN : (2 <= o_npts o0)%nat.
Variables (m : matrix) (hot cold : option matrix) (o : options) (u : pumpeddata) (f : R).
Hypothesis HP : PUMPED m d hot cold o = Ok u.
Hypothesis HF : o_freq o = Some f.
Local Notation dc := (d_dc d).
Local Notation vph := (f * 10 ^ 9 / dc_fgap dc).
Hypothesis HV : / 10000 < vph.

Local Notation simulated_current a := (tucker_curve J (idc (d_resp_smear d)) vph 30 (a 1%nat 1%nat)).
Local Notation sim_mv := (millivolts dc sim_voltages).
Lemma simulate_ok zt vt c : recovered_circuit vph zt vt = Ok c -> forall vb cur, simulate J inv (resp (d_resp_smear d)) c = Ok (vb, cur) ->
  exists vj, Model_HB.r_ret (Model_HB.harmonic_balance J inv (Model_HB.of_circ c) (resp (d_resp_smear d)) (NbInt 30) 10 (1 / 1000) None 1 "o" (RtoC (67 / 100))) = Ok (Model_HB.RetV vj) /\
    recovered_source vph zt vt (Model_HB.of_circ c) /\ vb = sim_voltages /\ cur = simulated_current vj.
Proof.
  intros EC vb cur H. destruct (circuit_built vph zt vt) as [c' [EC' [S [EV EF]]]]. rewrite EC in EC'. injection EC' as <-. unfold simulate in H. cbv zeta in H. rewrite hb_same_q in H. set (call := Model_HB.harmonic_balance _ _ _ _ _ _ _ _ _ _ _) in *.
  apply bind_ok in H. destruct H as [v [E1 H]]. apply bind_ok in H. destruct H as [vj [E2 H]]. destruct v as [vj'| | |]; try discriminate. injection E2 as ->. exists vj. split; [exact E1|]. split; [exact S|]. rewrite EF in H. cbn [pyget pyidx] in H.
  apply bind_ok in H. destruct H as [w [E3 H]]. cbn in E3. injection E3 as <-. destruct S as [S1 [S2 [S3 [S4 [S5 [S6 S7]]]]]].
  assert (A : args_ok (Model_HB.h_q (Model_HB.of_circ c)) (NbInt 30)). { unfold args_ok. rewrite S1, S2. split; [lia|]. split; [lia|]. split; [|exact I]. intros g G. replace g with 1%nat by lia. rewrite S4. lra. }
  rewrite qt_list in H by exact A. cbn [bind map pyget] in H. apply bind_ok in H. destruct H as [row [E4 H]]. change (Ok (spec_row J vj (Model_HB.h_q (Model_HB.of_circ c)) (resp (d_resp_smear d)) (NbInt 30) 0) = Ok row) in E4. apply ok_inj in E4. subst row. apply ok_inj in H. assert (EB : vb = Model_Circuit.c_vb c) by exact (eq_sym (f_equal fst H)). assert (ECU : cur = map Re (spec_row J vj (Model_HB.h_q (Model_HB.of_circ c)) (resp (d_resp_smear d)) (NbInt 30) 0)) by exact (eq_sym (f_equal snd H)). split; [congruence|]. rewrite ECU.
  assert (LV : / 10000 < q_freq (Model_HB.h_q (Model_HB.of_circ c)) 1) by (rewrite S4; exact HV). rewrite (one_tone_dc J vj _ (resp (d_resp_smear d)) 30 0 A S1 S2 LV round4_0). rewrite S3, S4. unfold tucker_curve, Model_QtCurrent.tab. apply map_ext_in. intros i Hi. apply in_seq in Hi. rewrite S5 by lia. apply pumped_same. intros v. unfold resp, idc, Cplus, Cmult, RtoC, Ci. cbn [Im fst snd]. ring.
Qed.

Local Notation V0 := (millivolts dc (d_voltage d)).
Local Notation I0 := (microamps dc (d_current d)).
Lemma sim_rising : rising sim_voltages.
Proof.
  unfold sim_voltages. intros i j I K. rewrite map_length, seq_length in K. rewrite !(nth_map_in _ _ _ _ 0%nat) by (rewrite seq_length; lia). rewrite !seq_nth by lia. cbn [Nat.add]. apply lt_INR in I. lra.
Qed.
(** The simulated curve. *)
Lemma simulated_figure vmax a : plot_simulated J inv d u o vmax = Ok a -> exists r vt c vj y1 y2 top,
  u_recovered u = Some r /\ rec_vt r = FV vt /\ recovered_source vph (rec_zt r) (RtoC vt) c /\
  Model_HB.r_ret (Model_HB.harmonic_balance J inv c (resp (d_resp_smear d)) (NbInt 30) 10 (1 / 1000) None 1 "o" (RtoC (67 / 100))) = Ok (Model_HB.RetV vj) /\
  let X := sim_mv in let Y := microamps dc (simulated_current vj) in
  let x1 := on_photon_step dc f (fst (simulated_limits o)) in let x2 := on_photon_step dc f (1 - snd (simulated_limits o)) in
  shows a (pumped_curves d u ++ [("Simulated"%string, List.combine X (map FV Y)); marks "Fit Interval" (x1, y1) (x2, y2)]) (step_lines dc f) /\
  on_curve X Y x1 y1 /\ on_curve X Y x2 y2 /\ on_curve V0 I0 vmax top /\
  g_xlim a = (Some 0, Some vmax) /\ g_ylim a = (Some 0, Some top) /\ g_xlabel a = "Bias Voltage (mV)"%string /\ g_ylabel a = "DC Current (uA)"%string /\ g_title a = circuit_legend dc f vt (rec_zt r).
Proof.
  intros H. unfold plot_simulated in H. apply bind_ok in H. destruct H as [v [EQ H]]. apply quot_ok in EQ. destruct EQ as [_ ->]. destruct (pumped_inv _ _ _ _ _ _ _ _ _ HP) as [f' [F' [UF _]]]. rewrite HF in F'. injection F' as <-. rewrite UF in H.
  destruct (simulated_limits o) as [lo hi] eqn:SL. apply bind_ok in H. destruct H as [r [R H]]. unfold rec_results in R. destruct (u_recovered u) as [r'|] eqn:UR; [|discriminate]. injection R as ->. apply bind_ok in H. destruct H as [vt [VT H]]. destruct (rec_vt r) as [vt'| | |] eqn:RV; try discriminate. injection VT as ->.
  apply bind_ok in H. destruct H as [c [EC H]]. apply bind_ok in H. destruct H as [[vb cur] [ES H]]. destruct (simulate_ok _ _ c EC vb cur ES) as [vj [HB [S [EV ECU]]]].
  destruct (drawn_iv argsort minimize savgol J spline dspline _ _ _ _ HD HG HM HN _ _ _ _ _ _ HP HF) as [items [EI SH]]. rewrite EI in H. cbn [bind] in H.
  assert (L : length cur = length vb) by (rewrite EV, ECU; unfold tucker_curve; rewrite !map_length; reflexivity).
  rewrite curve_ok in H by (unfold in_units, Model_Plots.numbers; rewrite !map_length; congruence). cbn [bind] in H.
  set (X := in_units vb (dc_vgap dc * 10 ^ 3)) in *. set (Y := in_units cur (dc_igap dc * 10 ^ 6)) in *.
  apply bind_ok in H. destruct H as [ys [EY H]]. apply bind_ok in H. destruct H as [c4 [E4 H]]. destruct (top_limit argsort minimize savgol J spline dspline _ _ _ _ HD HG HM HN _ _ _ _ _ HP vmax) as [top [T C]]. change (in_units (d_voltage d) (dc_vgap dc * 10 ^ 3)) with V0 in H. change (in_units (d_current d) (dc_igap dc * 10 ^ 6)) with I0 in H. rewrite T in H. cbn [bind nth] in H.
  pose proof (SH {| g_items := items; g_xlabel := ""; g_ylabel := ""; g_title := ""; g_xlim := (None, None); g_ylim := (None, None) |} eq_refl) as S0. unfold shows in S0. cbn [g_items] in S0. unfold pumped_curves, step_lines in S0. cbn [map app fst snd] in S0. rewrite S0 in H. clear SH. apply ok_inj in H. subst a.
  assert (RX : rising X) by (unfold X, in_units; rewrite EV; apply map_rising; [lra|apply sim_rising]).
  assert (LX : length X = 201%nat) by (unfold X, in_units; rewrite map_length, EV; unfold sim_voltages; rewrite map_length; apply seq_length). assert (LY : length Y = length X) by (unfold X, Y, in_units; rewrite !map_length; exact L).
  assert (EYS : ys = [np_interp1 X Y (on_photon_step dc f lo); np_interp1 X Y (on_photon_step dc f (1 - hi))]).
  { unfold np_interp in EY. rewrite LX, LY, LX in EY. cbn [Nat.eqb negb guard bind map] in EY. apply ok_inj in EY. rewrite <- EY. unfold on_photon_step. match goal with |- [np_interp1 _ _ ?a; np_interp1 _ _ ?b] = [np_interp1 _ _ ?a'; np_interp1 _ _ ?b'] => replace a with a' by ring; replace b with b' by ring end. reflexivity. }
  subst ys. rewrite curve_ok in E4 by reflexivity. apply ok_inj in E4. subst c4.
  exists r, vt, (Model_HB.of_circ c), vj, (np_interp1 X Y (on_photon_step dc f lo)), (np_interp1 X Y (on_photon_step dc f (1 - hi))), top.
  split; [reflexivity|]. split; [exact RV|]. split; [exact S|]. split; [exact HB|]. cbv zeta. cbn [fst snd]. rewrite <- EV, <- ECU. change (millivolts dc vb) with X. change (microamps dc cur) with Y.
  split; [|split; [apply interp_joined; [assumption|assumption|lia]|split; [apply interp_joined; [assumption|assumption|lia]|split; [exact C|]]]].
  2: { cbn [g_xlim g_ylim g_xlabel g_ylabel g_title]. split; [reflexivity|]. split; [reflexivity|]. split; [reflexivity|]. split; [reflexivity|]. unfold circuit_legend, lo_legend, lo_title. rewrite UF.
    pose proof (photon_voltage argsort minimize savgol J spline dspline _ _ _ _ _ _ _ _ _ _ HD HP HF) as PV. replace (u_vph u * (dc_vgap dc * 10 ^ 3)) with (planck * (f * 10 ^ 9) / elementary_charge * 10 ^ 3) by (rewrite <- PV; unfold elementary_charge; field). reflexivity. }
  unfold shows, pumped_curves, step_lines. cbn [g_items app map fst snd]. do 2 (apply (f_equal2 (@cons item)); [reflexivity|]). apply (f_equal2 (@cons item)); [|apply (f_equal2 (@cons item)); [|reflexivity]].
  - rewrite unzip_l, unzip_r by (rewrite map_length; congruence). reflexivity.
  - unfold marks. cbn [map fst snd]. unfold Model_Plots.numbers. cbn [map]. unfold on_photon_step. match goal with |- Curve _ [?a; ?b] _ = Curve _ [?a'; ?b'] _ => replace a with a' by ring; replace b with b' by ring end. reflexivity.
Qed.
End Recovery.
