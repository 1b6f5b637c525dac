(** Lemmas for the error surface, and cases for the figures of the impedance recovery. *)
From Coq Require Import List ZArith Bool Arith Reals Lra Lia String.
From Coquelicot Require Import Complex.
From Verif Require Import Base Sums Round Float NumPy Model_CleanData Spec_CleanData Model_RespFn Spec_RespFn Spec_IVData Spec_IFData Model_IVData Model_IFData Model_MathFn Model_Tucker Model_ExpData Spec_ExpData Model_Objects Spec_Objects.
From Verif Require Import Model_QtCurrent Spec_QtCurrent Spec_QtApi.
From Verif Require Model_Circuit Model_HB Proof_HB5.
From Verif Require Import Proof_NumPy Proof_Circuit Proof_IVModels Proof_RespFn2 Proof_ExpCases Proof_CleanData Proof_IVData Proof_IVCurve Proof_ExpData Proof_Recover Proof_Objects Proof_Objects2 Proof_Objects3 Proof_Objects4 Proof_Recover2 Proof_Recover3 Model_Misc Model_Plots Spec_Plots Proof_Plots Proof_Plots3 Proof_Plots4.
Import ListNotations.
Open Scope R_scope.
Local Notation length := List.length.
Local Notation rising := Spec_RespFn.increasing.

Lemma log_of_error e : 0 <= e -> flog10 (FV e) = log_error e.
Proof.
  intros H. unfold flog10, log_error. destruct (Req_EM_T e 0) as [->|N].
  - destruct (Rltb_spec 0 0) as [X|_]; [lra|]. destruct (Reqb_spec 0 0) as [_|X]; [reflexivity|congruence].
  - rewrite Rltb_t by lra. reflexivity.
Qed.
Section Surface.
Variable argsort : list fl -> list nat.
Variable savgol : list R -> Z -> Z -> list R.
Variable J : nat -> R -> R.
Local Notation PUMPED := (pumped_data argsort savgol J).

Lemma error_surface m d hot cold o u f r lo hi a : PUMPED m d hot cold o = Ok u -> o_freq o = Some f -> u_recovered u = Some r -> o_fit_range o = Some (lo, hi) ->
  plot_error_surface d u o = Ok a ->
  let idc := idc (d_resp d) in let ikk := ikk (d_resp d) in let vph := f * 10 ^ 9 / dc_fgap (d_dc d) in let rn := dc_rn (d_dc d) in
  let B := step_samples vph lo hi (u_voltage u) (u_current u) in
  exists al, find_alpha J idc (map fst B) (map snd B) vph (o_alpha_max o) (o_num_b o) = Ok al /\
  let pts := map (fun p => junction_sample J idc ikk vph (o_num_b o) (fst (fst p)) (snd p)) (List.combine B al) in
  let z := grid_point (o_remb_range o) (o_xemb_range o) in
  ((forall p, In p (List.combine B al) -> ac_current J idc ikk vph (snd p) (o_num_b o) (fst (fst p)) <> RtoC 0) ->
   (forall i j, (i <= 100)%nat -> (j <= 200)%nat -> connectable pts (z i j)) ->
   exists X Y Z text x y, g_items a = [Surface X Y Z; Note text (FV x) (FV y)] /\ length X = 101%nat /\ length Y = 201%nat /\ length Z = 201%nat /\
     (forall i j, (i <= 100)%nat -> (j <= 200)%nat -> nth i X 0 = Re (z i j) * rn /\ nth j Y 0 = Im (z i j) * rn /\ length (nth j Z []) = 101%nat /\
        exists e, least_mismatch pts (z i j) e /\ nth i (nth j Z []) FNaN = log_error e) /\
     match o_zemb o with
     | None => exists i j e, (i <= 100)%nat /\ (j <= 200)%nat /\ x = nth i X 0 /\ y = nth j Y 0 /\ least_mismatch pts (z i j) e /\
         forall i' j' e', (i' <= 100)%nat -> (j' <= 200)%nat -> least_mismatch pts (z i' j') e' -> e <= e'
     | Some w => x = Re w * rn /\ y = Im w * rn
     end).
Proof.
  intros PU F R FR HA idc0 ikk0 vph rn B. destruct (pumped_inv _ _ _ _ _ _ _ _ _ PU) as [f' [F' [_ [_ [_ [IV [_ [RE _]]]]]]]]. rewrite F in F'. injection F' as <-. destruct (o_analyze_iv o); [|congruence]. destruct RE as [r' [RE R']]. rewrite R in R'. injection R' as <-.
  assert (L : length (u_voltage u) = length (u_current u)) by (destruct (iv_grid argsort savgol _ _ _ _ _ IV) as [_ LL]; now symmetry).
  assert (RU : range_used (rec_options o) lo hi) by (left; cbn [rec_options r_fit_range]; now rewrite FR).
  destruct (recover_inv J idc0 ikk0 _ _ _ (rec_options o) r lo hi L (range_limits _ _ _ RU) RE) as [al [mm [EA [LA [EG _]]]]]. cbv zeta in EG. change (f * 10 ^ 9 / dc_fgap (d_dc d)) with vph in EA, LA, EG. change (step_samples vph lo hi (u_voltage u) (u_current u)) with B in EA, LA, EG.
  destruct (recover_grid J idc0 ikk0 _ _ _ (rec_options o) r lo hi L RU RE) as [al' [EA' BB]]. assert (Q : Ok al' = Ok al) by (etransitivity; [symmetry; exact EA'|exact EA]). injection Q as ->. clear EA'. cbv zeta in BB. fold vph B in BB.
  exists al. split; [exact EA|]. intros pts z NZ CN. cbn [rec_options r_alpha_max r_num_b r_remb r_xemb r_zemb] in *.
  destruct (BB NZ CN) as [i0 [j0 [V0 [I0 [J0 [EZ [_ [_ [MIN _]]]]]]]]]. fold pts z in EZ, MIN. change (samples J idc0 ikk0 vph (o_num_b o) B al) with pts in MIN. clear BB.
  destruct (raw_finite J idc0 ikk0 vph (o_num_b o) _ NZ) as [E1 E2]. rewrite E1, E2 in EG. change (map (sample_of J idc0 ikk0 vph (o_num_b o)) (List.combine B al)) with pts in EG.
  apply grid_inv in EG; [|now rewrite !map_length]. destruct EG as [k [_ [ES _]]].
  unfold plot_error_surface, rec_results in HA. rewrite R in HA. cbn [bind] in HA. apply ok_inj in HA. subst a. cbn [g_items].
  do 6 eexists. split; [reflexivity|]. unfold in_units, transpose. rewrite !map_length, !linspace_length, seq_length. split; [reflexivity|]. split; [reflexivity|]. split; [reflexivity|].
  assert (GP : forall i j, (i <= 100)%nat -> (j <= 200)%nat -> nth i (map (fun x => x * rn) (linspace (fst (o_remb_range o)) (snd (o_remb_range o)) 101)) 0 = Re (z i j) * rn /\ nth j (map (fun x => x * rn) (linspace (fst (o_xemb_range o)) (snd (o_xemb_range o)) 201)) 0 = Im (z i j) * rn).
  { intros i j Hi Hj. pose proof (grid_nth (rec_options o) i j Hi Hj) as G. cbn [rec_options r_remb r_xemb] in G. fold z in G. rewrite !(nth_map_in _ _ _ _ 0) by (rewrite linspace_length; lia). rewrite <- G. split; reflexivity. }
  split.
  - intros i j Hi Hj. destruct (GP i j Hi Hj) as [G1 G2]. split; [exact G1|]. split; [exact G2|]. rewrite (nth_map_in _ _ _ _ 0%nat) by (rewrite seq_length; lia). rewrite seq_nth by lia. cbn [Nat.add].
    assert (LS : length (rec_err r) = 101%nat) by (rewrite ES, map_length; apply linspace_length).
    rewrite !map_length, LS. split; [reflexivity|].
    destruct (error_minimum pts (z i j) (CN i j Hi Hj)) as [e [V [E [EV [_ [EM [M [_ EP]]]]]]]]. exists e. split; [split; [now exists V|exact M]|].
    rewrite map_map. rewrite (nth_map_in _ _ _ _ []) by (rewrite LS; lia).
    assert (LR : length (nth i (rec_err r) []) = 201%nat) by (rewrite ES; pose proof (surf_rows (map fst pts) (map (fun p => Some (snd p)) pts) (rec_options o)) as SR; rewrite List.Forall_forall in SR; apply SR, nth_In; rewrite <- ES, LS; lia).
    rewrite (nth_map_in _ _ _ _ FNaN) by (rewrite LR; lia). rewrite ES. pose proof (surf_nth (map fst pts) (map (fun p => Some (snd p)) pts) (rec_options o) ltac:(now rewrite !map_length) i j Hi Hj) as SN. cbn [rec_options r_remb r_xemb] in SN |- *. etransitivity; [apply f_equal; exact SN|]. fold z. unfold the_error. rewrite E. now apply log_of_error.
  - rewrite EZ. destruct (o_zemb o) as [w|]; [split; reflexivity|]. destruct (error_minimum pts (z i0 j0) (CN i0 j0 I0 J0)) as [e [V [_ [_ [_ [EM [M _]]]]]]].
    exists i0, j0, e. split; [assumption|]. split; [assumption|]. destruct (GP i0 j0 I0 J0) as [G1 G2]. split; [symmetry; exact G1|]. split; [symmetry; exact G2|]. split; [split; [now exists V|exact M]|].
    intros i' j' e' Hi Hj [[V' ->] _]. apply Rle_trans with (mismatch pts (z i0 j0) V0); [apply M|now apply MIN].
Qed.
End Surface.
Section Drawn.
Variable argsort : list fl -> list nat.
Variable minimize : (R * R -> R) -> R * R -> R * R.
Variable savgol : list R -> Z -> Z -> list R.
Variable J : nat -> R -> R.
Variable spline dspline : list R -> list R -> Z -> R -> R.
Variable inv : nat -> (nat -> nat -> R) -> option (nat -> nat -> R).
Local Notation DC := (dc_data argsort minimize savgol spline dspline).
Local Notation PUMPED := (pumped_data argsort savgol J).
Variables (m0 : matrix) (f0 : option matrix) (o0 : options) (d : dcdata).
Hypothesis HD : DC m0 f0 o0 = Ok d.
Hypothesis HG : 0 < dc_vgap (d_dc d).
Hypothesis HM : 0 < o_vmax o0.
Hypothesis HN : (2 <= o_npts o0)%nat.
Variables (m : matrix) (hot cold : option matrix) (o : options) (u : pumpeddata) (f : R).
Hypothesis HP : PUMPED m d hot cold o = Ok u.
Hypothesis HF : o_freq o = Some f.
Local Notation dc := (d_dc d).
Local Notation vph := (f * 10 ^ 9 / dc_fgap dc).
Hypothesis HV : / 10000 < vph.
Hypothesis HQ : dc_fgap dc <> 0.

(** Without an impedance there is nothing to solve for. *)
Lemma zero_balance vt c resp nb : recovered_source vph (RtoC 0) vt c -> exists v, Model_HB.r_ret (Model_HB.harmonic_balance J inv c resp nb 10 (1 / 1000) None 1 "o" (RtoC (67 / 100))) = Ok (Model_HB.RetV v) /\ forall i, v 1%nat 1%nat i = vt.
Proof.
  intros S. destruct S as [S1 [S2 [S3 [S4 [S5 [S6 S7]]]]]].
  destruct (Proof_HB5.no_impedance_at_all J inv c resp nb 10 (1 / 1000) None 1 (RtoC (67 / 100)) "o") as [v [E V]].
  { intros g p G P. destruct (S7 g p) as [_ ->]. now destruct (_ && _). }
  exists v. split; [exact E|]. intros i. rewrite V. destruct (S7 1%nat 1%nat) as [-> _]. reflexivity.
Qed.
Lemma simulated_drawn r vt vmax : u_recovered u = Some r -> rec_zt r = RtoC 0 -> rec_vt r = FV vt -> exists a, plot_simulated J inv d u o vmax = Ok a.
Proof.
  intros UR ZT VT. unfold plot_simulated. rewrite quot_eq by exact HQ. cbn [bind]. destruct (pumped_inv _ _ _ _ _ _ _ _ _ HP) as [f' [F' [UF _]]]. rewrite HF in F'. injection F' as <-. rewrite UF.
  destruct (simulated_limits o) as [lo hi]. unfold rec_results. rewrite UR. cbn [bind]. rewrite VT. cbn [bind]. rewrite ZT.
  destruct (circuit_built vph (RtoC 0) (RtoC vt)) as [c [EC [S [EV EF]]]]. rewrite EC. cbn [bind].
  destruct (zero_balance (RtoC vt) _ (resp (d_resp_smear d)) (NbInt 30) S) as [v [E V]]. destruct S as [S1 [S2 [S3 [S4 [S5 [S6 S7]]]]]].
  assert (A : args_ok (Model_HB.h_q (Model_HB.of_circ c)) (NbInt 30)). { unfold args_ok. rewrite S1, S2. split; [lia|]. split; [lia|]. split; [|exact I]. intros g G. replace g with 1%nat by lia. rewrite S4. lra. }
  assert (SIM : exists row, simulate J inv (resp (d_resp_smear d)) c = Ok (Model_Circuit.c_vb c, row) /\ length row = 201%nat).
  { unfold simulate. cbv zeta. rewrite hb_same_q. rewrite E. cbn [bind]. rewrite EF. cbn [pyget pyidx]. change (pyget [0; vph] 1) with (Ok vph). cbn [bind]. rewrite Proof_QtApi2.qt_list by exact A. cbn [bind map]. change (pyget (?a :: ?b) 0) with (Ok a). cbn [bind]. eexists. split; [reflexivity|]. rewrite map_length. unfold spec_row, Model_QtCurrent.tab. rewrite map_length, seq_length. exact S3. }
  destruct SIM as [row [-> LR]]. cbn [bind].
  destruct (drawn_iv argsort minimize savgol J spline dspline _ _ _ _ HD HG HM HN _ _ _ _ _ _ HP HF) as [items [EI SH]]. rewrite EI. cbn [bind].
  assert (LV : length (Model_Circuit.c_vb c) = 201%nat) by (rewrite EV; unfold sim_voltages; now rewrite map_length, seq_length).
  rewrite curve_ok by (unfold in_units, Model_Plots.numbers; rewrite !map_length; congruence). cbn [bind].
  unfold np_interp at 1. unfold in_units at 1 2 3 4. rewrite !map_length, LV, LR. cbn [Nat.eqb negb guard bind map]. rewrite curve_ok by reflexivity. cbn [bind].
  destruct (top_limit argsort minimize savgol J spline dspline _ _ _ _ HD HG HM HN _ _ _ _ _ HP vmax) as [top [T C]]. change (in_units (d_voltage d) (dc_vgap dc * 10 ^ 3)) with (millivolts dc (d_voltage d)). change (in_units (d_current d) (dc_igap dc * 10 ^ 6)) with (microamps dc (d_current d)). rewrite T. cbn [bind].
  pose proof (SH {| g_items := items; g_xlabel := ""; g_ylabel := ""; g_title := ""; g_xlim := (None, None); g_ylim := (None, None) |} eq_refl) as S0. unfold shows in S0. cbn [g_items] in S0. unfold pumped_curves, step_lines in S0. cbn [map app fst snd] in S0. rewrite S0. eexists. reflexivity.
Qed.
End Drawn.
(** ** Cases *)
Lemma shown_recovered minimize savgol J : J 0%nat (3 / 2) <> 0 -> J 1%nat (3 / 2) <> 0 -> (J 0%nat (3 / 2)) ^ 2 <> 1 -> forall dspline z r cl ch,
  r = Some (25 / 100, 8 / 10) \/ r = None /\ cl = Some (25 / 100) /\ ch = Some (2 / 10) -> let o := shown z r cl ch in exists d u rr al,
  dc_data insertion_argsort minimize savgol ones dspline file None o = Ok d /\ pumped_data insertion_argsort savgol J (pumped_file J) d (Some hot_file) (Some cold_file) o = Ok u /\
  dc_vgap (d_dc d) = 3 / 10 ^ 3 /\ dc_rn (d_dc d) = 10 /\ 3 / 10 < 230 * 10 ^ 9 / dc_fgap (d_dc d) /\ dc_fgap (d_dc d) <> 0 /\ u_recovered u = Some rr /\
  let idc := idc (d_resp d) in let ikk := ikk (d_resp d) in let vph := 230 * 10 ^ 9 / dc_fgap (d_dc d) in
  let B := step_samples vph (25 / 100) (8 / 10) (u_voltage u) (u_current u) in
  recover_zemb J idc ikk (u_voltage u) (u_current u) vph (rec_options (shown z (Some (25 / 100, 8 / 10)) cl ch)) = Ok rr /\
  find_alpha J idc (map fst B) (map snd B) vph (o_alpha_max o) (o_num_b o) = Ok al /\ B <> [] /\
  (forall p, In p (List.combine B al) -> ac_current J idc ikk vph (snd p) (o_num_b o) (fst (fst p)) <> RtoC 0) /\
  (forall i j, (i <= 100)%nat -> (j <= 200)%nat -> connectable (map (fun p => junction_sample J idc ikk vph (o_num_b o) (fst (fst p)) (snd p)) (List.combine B al)) (grid_point (o_remb_range o) (o_xemb_range o) i j)) /\
  (z = Some (RtoC 0) -> rec_zt rr = RtoC 0 /\ exists V, rec_vt rr = FV V).
Proof.
  intros J0 J1 J2 dspline z r cl ch HR o. destruct (shown_case minimize savgol J J2 dspline z r cl ch HR) as [d [u [n [rr [D [U [G [RN [FG [_ [_ [UR [RR [[BN BS] _]]]]]]]]]]]]]].
  destruct (resp_ones minimize savgol dspline _ _ _ _ D) as [R1 R2]. set (vph := 230 * 10 ^ 9 / dc_fgap (d_dc d)) in *. set (B := step_samples vph (25 / 100) (8 / 10) (u_voltage u) (u_current u)) in *.
  assert (L : length (u_voltage u) = length (u_current u)). { destruct (pumped_inv _ _ _ _ _ _ _ _ _ U) as [f' [_ [_ [_ [_ [IV _]]]]]]. destruct (iv_grid insertion_argsort savgol _ _ _ _ _ IV) as [_ LL]. now symmetry. }
  set (q := rec_options (shown z (Some (25 / 100, 8 / 10)) cl ch)) in *. assert (RU : range_used q (25 / 100) (8 / 10)) by (left; reflexivity).
  destruct (recover_middle J (idc (d_resp d)) (ikk (d_resp d)) _ _ vph q rr (25 / 100) (8 / 10) L RU RR) as [al [_ [EA _]]]. fold B in EA. cbn [q rec_options r_alpha_max r_num_b shown o_alpha_max o_num_b] in EA.
  destruct (alpha_ones J J2 (idc (d_resp d)) vph B al R1 BS EA) as [LA AA].
  pose proof vph_full as VP. assert (VB : 3 / 10 < vph) by (unfold vph; rewrite FG; apply VP). clear VP.
  exists d, u, rr, al. split; [exact D|]. split; [exact U|]. split; [exact G|]. split; [exact RN|]. fold vph. split; [exact VB|]. split; [rewrite FG; unfold sc_e, sc_h; lra|]. split; [exact UR|]. cbv zeta. cbn [o shown o_alpha_max o_num_b o_remb_range o_xemb_range]. split; [exact RR|]. split; [exact EA|]. split; [exact BN|].
  assert (AC : forall p, In p (List.combine B al) -> ac_current J (idc (d_resp d)) (ikk (d_resp d)) vph (snd p) 0 (fst (fst p)) = (0, - (2 * J 0%nat (3 / 2) * J 1%nat (3 / 2)))).
  { intros [[t y] a] Hp. cbn [fst snd]. rewrite (AA a) by (now apply in_combine_r in Hp). now apply ac_ones. }
  assert (JJ : 2 * J 0%nat (3 / 2) * J 1%nat (3 / 2) <> 0) by (repeat apply Rmult_integral_contrapositive_currified; try assumption; lra).
  assert (NZ : forall p, In p (List.combine B al) -> ac_current J (idc (d_resp d)) (ikk (d_resp d)) vph (snd p) 0 (fst (fst p)) <> RtoC 0) by (intros p Hp; rewrite AC by assumption; apply C_neq; right; cbn; lra).
  split; [exact NZ|].
  assert (ZI : forall q, In q (List.combine B al) -> snd (junction_sample J (idc (d_resp d)) (ikk (d_resp d)) vph 0 (fst (fst q)) (snd q)) = (0, 3 / 2 * vph / (2 * J 0%nat (3 / 2) * J 1%nat (3 / 2)))).
  { intros p Q. unfold junction_sample. cbn [snd]. rewrite AC by assumption. destruct p as [[t y] a]. cbn [snd]. rewrite (AA a) by (now apply in_combine_r in Q). unfold Cdiv, Cinv, Cmult, RtoC. cbn [fst snd]. set (j := 2 * J 0%nat (3 / 2) * J 1%nat (3 / 2)) in *. f_equal; field; assumption. }
  assert (NI : 3 / 2 * vph / (2 * J 0%nat (3 / 2) * J 1%nat (3 / 2)) <> 0) by (apply Rmult_integral_contrapositive_currified; [lra|now apply Rinv_neq_0_compat]).
  assert (CG : forall w : C, fst w > 0 \/ w = RtoC 0 -> connectable (map (fun p => junction_sample J (idc (d_resp d)) (ikk (d_resp d)) vph 0 (fst (fst p)) (snd p)) (List.combine B al)) w).
  { intros w W. split.
    - intros p Q. apply in_map_iff in Q. destruct Q as [x [<- X]]. rewrite ZI by assumption. destruct W as [W| ->]; apply C_neq; [left|right]; cbn [fst snd Cplus RtoC]; lra.
    - destruct B as [|b0 B0]; [contradiction|]. destruct al as [|a0 al0]; [discriminate LA|]. eexists. split; [left; reflexivity|]. rewrite ZI by (left; reflexivity). apply C_neq. right. cbn [snd RtoC]. exact NI. }
  assert (CO : forall i j, (i <= 100)%nat -> (j <= 200)%nat -> connectable (map (fun p => junction_sample J (idc (d_resp d)) (ikk (d_resp d)) vph 0 (fst (fst p)) (snd p)) (List.combine B al)) (grid_point (1, 2) (-1, 1) i j)).
  { intros i j _ _. apply CG. left. unfold grid_point. cbn [fst snd]. pose proof (pos_INR i). lra. }
  split; [exact CO|]. intros ->.
  destruct (recover_forced J (idc (d_resp d)) (ikk (d_resp d)) _ _ vph q rr (25 / 100) (8 / 10) (RtoC 0) L RU eq_refl RR) as [al' [EA' BB]]. fold B in EA'. change (r_alpha_max q) with (3 / 2) in EA'. change (r_num_b q) with 0%nat in EA', BB. rewrite EA in EA'. injection EA' as <-. cbv zeta in BB. fold B in BB.
  destruct (BB NZ CO (CG _ (or_intror eq_refl))) as [E1 [[V [E2 _]] _]]. split; [exact E1|now exists V].
Qed.
(** The fit interval that is given. *)
Lemma simulated_given argsort minimize savgol J spline dspline inv m0 f0 o0 d m hot cold o u f lo hi vmax a :
  dc_data argsort minimize savgol spline dspline m0 f0 o0 = Ok d -> 0 < dc_vgap (d_dc d) -> 0 < o_vmax o0 -> (2 <= o_npts o0)%nat ->
  pumped_data argsort savgol J m d hot cold o = Ok u -> o_freq o = Some f -> / 10000 < f * 10 ^ 9 / dc_fgap (d_dc d) -> o_fit_range o = Some (lo, hi) ->
  plot_simulated J inv d u o vmax = Ok a -> exists r vt c vj y1 y2 top,
  let dc := d_dc d in let vph := f * 10 ^ 9 / dc_fgap dc in
  u_recovered u = Some r /\ rec_vt r = FV vt /\ recovered_source vph (rec_zt r) (RtoC vt) c /\
  Model_HB.r_ret (Model_HB.harmonic_balance J inv c (resp (d_resp_smear d)) (NbInt 30) 10 (1 / 1000) None 1 "o" (RtoC (67 / 100))) = Ok (Model_HB.RetV vj) /\
  let X := millivolts dc sim_voltages in let Y := microamps dc (tucker_curve J (idc (d_resp_smear d)) vph 30 (vj 1%nat 1%nat)) in
  let x1 := on_photon_step dc f lo in let x2 := on_photon_step dc f hi in
  shows a (pumped_curves d u ++ [("Simulated"%string, List.combine X (map FV Y)); marks "Fit Interval" (x1, y1) (x2, y2)]) (step_lines dc f) /\
  on_curve X Y x1 y1 /\ on_curve X Y x2 y2 /\ on_curve (millivolts dc (d_voltage d)) (microamps dc (d_current d)) vmax top /\
  g_xlim a = (Some 0, Some vmax) /\ g_ylim a = (Some 0, Some top) /\ g_xlabel a = "Bias Voltage (mV)"%string /\ g_ylabel a = "DC Current (uA)"%string /\ g_title a = circuit_legend dc f vt (rec_zt r).
Proof.
  intros HD HG HM HN HP HF HV FR H. destruct (simulated_figure argsort minimize savgol J spline dspline inv m0 f0 o0 d HD HG HM HN m hot cold o u f HP HF HV vmax a H) as [r [vt [c [vj [y1 [y2 [top K]]]]]]].
  exists r, vt, c, vj, y1, y2, top. unfold simulated_limits in K. rewrite FR in K. cbn [fst snd] in K. replace (1 - (1 - hi)) with hi in K by ring. exact K.
Qed.
Lemma simulated_zero argsort minimize savgol J spline dspline inv m0 f0 o0 d m hot cold o u f r vt vmax :
  dc_data argsort minimize savgol spline dspline m0 f0 o0 = Ok d -> 0 < dc_vgap (d_dc d) -> 0 < o_vmax o0 -> (2 <= o_npts o0)%nat ->
  pumped_data argsort savgol J m d hot cold o = Ok u -> o_freq o = Some f -> / 10000 < f * 10 ^ 9 / dc_fgap (d_dc d) ->
  u_recovered u = Some r -> rec_zt r = RtoC 0 -> rec_vt r = FV vt -> exists a y1 y2, plot_simulated J inv d u o vmax = Ok a /\
  let dc := d_dc d in let vph := f * 10 ^ 9 / dc_fgap dc in
  let X := millivolts dc sim_voltages in let Y := microamps dc (tucker_curve J (idc (d_resp_smear d)) vph 30 (fun _ => RtoC vt)) in
  let x1 := on_photon_step dc f (fst (simulated_limits o)) in let x2 := on_photon_step dc f (1 - snd (simulated_limits o)) in
  shows a (pumped_curves d u ++ [("Simulated"%string, List.combine X (map FV Y)); marks "Fit Interval" (x1, y1) (x2, y2)]) (step_lines dc f) /\
  on_curve X Y x1 y1 /\ on_curve X Y x2 y2.
Proof.
  intros HD HG HM HN HP HF HV UR ZT VT. assert (HQ : dc_fgap (d_dc d) <> 0) by (destruct (pumped_inv _ _ _ _ _ _ _ _ _ HP) as [? [? [? [N _]]]]; exact N).
  destruct (simulated_drawn argsort minimize savgol J spline dspline inv m0 f0 o0 d HD HG HM HN m hot cold o u f HP HF HV HQ r vt vmax UR ZT VT) as [a H].
  destruct (simulated_figure argsort minimize savgol J spline dspline inv m0 f0 o0 d HD HG HM HN m hot cold o u f HP HF HV vmax a H) as [r' [vt' [c [vj [y1 [y2 [top [UR' [VT' [S [HB K]]]]]]]]]]].
  rewrite UR in UR'. injection UR' as <-. rewrite VT in VT'. injection VT' as <-. rewrite ZT in S. destruct (zero_balance J inv d f (RtoC vt) c (resp (d_resp_smear d)) (NbInt 30) S) as [v [E V]]. assert (Q : vj = v) by congruence. subst v.
  cbv zeta in K. replace (tucker_curve J (idc (d_resp_smear d)) (f * 10 ^ 9 / dc_fgap (d_dc d)) 30 (vj 1%nat 1%nat)) with (tucker_curve J (idc (d_resp_smear d)) (f * 10 ^ 9 / dc_fgap (d_dc d)) 30 (fun _ => RtoC vt)) in K by (unfold tucker_curve; apply map_ext; intros i; now rewrite V).
  exists a, y1, y2. split; [exact H|]. cbv zeta. destruct K as [K1 [K2 [K3 _]]]. auto.
Qed.
(** With cut_low and cut_high instead of fit_range the marks are elsewhere. *)
Lemma simulated_cuts minimize savgol J : J 0%nat (3 / 2) <> 0 -> J 1%nat (3 / 2) <> 0 -> (J 0%nat (3 / 2)) ^ 2 <> 1 -> forall dspline inv vmax, let o := shown (Some (RtoC 0)) None (Some (25 / 100)) (Some (2 / 10)) in exists d u r a y1 y2 s1 s2,
  dc_data insertion_argsort minimize savgol ones dspline file None o = Ok d /\ pumped_data insertion_argsort savgol J (pumped_file J) d (Some hot_file) (Some cold_file) o = Ok u /\
  u_recovered u = Some r /\ recover_zemb J (idc (d_resp d)) (ikk (d_resp d)) (u_voltage u) (u_current u) (230 * 10 ^ 9 / dc_fgap (d_dc d)) (rec_options (shown (Some (RtoC 0)) (Some (25 / 100, 8 / 10)) (Some (25 / 100)) (Some (2 / 10)))) = Ok r /\
  plot_simulated J inv d u o vmax = Ok a /\
  shows a (pumped_curves d u ++ [("Simulated"%string, s1); s2]) (step_lines (d_dc d) 230) /\
  s2 = marks "Fit Interval" (on_photon_step (d_dc d) 230 (25 / 100), y1) (on_photon_step (d_dc d) 230 (2 / 10), y2) /\
  on_photon_step (d_dc d) 230 (2 / 10) < on_photon_step (d_dc d) 230 (8 / 10).
Proof.
  intros J0 J1 J2 dspline inv vmax o. destruct (shown_recovered minimize savgol J J0 J1 J2 dspline (Some (RtoC 0)) None (Some (25 / 100)) (Some (2 / 10)) (or_intror (conj eq_refl (conj eq_refl eq_refl)))) as [d [u [r [al [D [U [G [_ [VP [_ [UR [RR [_ [_ [_ [_ Z]]]]]]]]]]]]]]]].
  destruct (Z eq_refl) as [ZT [V VT]].
  destruct (simulated_zero insertion_argsort minimize savgol J ones dspline inv file None o d (pumped_file J) (Some hot_file) (Some cold_file) o u 230 r V vmax) as [a [y1 [y2 [E [S _]]]]]; try assumption; try reflexivity; try (rewrite G; lra); try (cbn; lra); try (cbn; lia).
  exists d, u, r, a, y1, y2. eexists. eexists. split; [exact D|]. split; [exact U|]. split; [exact UR|]. split; [exact RR|]. split; [exact E|]. split; [exact S|]. split.
  - cbn [simulated_limits o shown o_fit_range o_cut_low o_cut_high fst snd]. replace (1 - (1 - 2 / 10)) with (2 / 10) by lra. reflexivity.
  - unfold on_photon_step. apply Rmult_lt_compat_r; [rewrite G; lra|]. lra.
Qed.
(** With a given impedance the note is not at the minimum. *)
Lemma forced_note minimize savgol J : J 0%nat (3 / 2) <> 0 -> J 1%nat (3 / 2) <> 0 -> (J 0%nat (3 / 2)) ^ 2 <> 1 -> forall dspline, let o := shown (Some (RtoC 0)) (Some (25 / 100, 8 / 10)) None None in exists d u a X Y Z text,
  dc_data insertion_argsort minimize savgol ones dspline file None o = Ok d /\ pumped_data insertion_argsort savgol J (pumped_file J) d (Some hot_file) (Some cold_file) o = Ok u /\
  plot_error_surface d u o = Ok a /\ g_items a = [Surface X Y Z; Note text (FV 0) (FV 0)] /\ String.substring 0 16 text = "Minimum Error at"%string /\ (forall x, In x X -> 10 <= x) /\ length X = 101%nat.
Proof.
  intros J0 J1 J2 dspline o. destruct (shown_recovered minimize savgol J J0 J1 J2 dspline (Some (RtoC 0)) (Some (25 / 100, 8 / 10)) None None (or_introl eq_refl)) as [d [u [r [al [D [U [G [RN [VP [_ [UR [RR [_ [_ [_ [_ Z]]]]]]]]]]]]]]]].
  destruct (Z eq_refl) as [ZT _]. exists d, u. unfold plot_error_surface, rec_results. rewrite UR. cbn [bind]. rewrite ZT. eexists. do 4 eexists. split; [exact D|]. split; [exact U|]. split; [reflexivity|]. cbn [g_items]. split.
  - unfold Re, Im, RtoC. cbn [fst snd]. rewrite Rmult_0_l. reflexivity.
  - split; [|split; [|unfold in_units; rewrite map_length; apply linspace_length]].
    + cbn [String.append String.substring]. reflexivity.
    + intros x X. unfold in_units in X. apply in_map_iff in X. destruct X as [y [<- Y]]. rewrite RN. apply (In_nth _ _ 0) in Y. destruct Y as [k [K <-]]. rewrite linspace_length in K. rewrite linspace_nth by lia. cbn [o shown o_remb_range fst snd]. pose proof (pos_INR k). cbn [Nat.sub]. replace (INR 100) with 100 by (rewrite INR_IZR_INZ; reflexivity). lra.
Qed.
Lemma no_recovery J inv d u o vmax : dc_fgap (d_dc d) <> 0 -> u_recovered u = None -> plot_error_surface d u o = Err TypeError /\ plot_simulated J inv d u o vmax = Err TypeError.
Proof.
  intros Q H. unfold plot_error_surface, plot_simulated, rec_results. rewrite H. split; [reflexivity|]. rewrite quot_eq by exact Q. cbn [bind]. now destruct (simulated_limits o).
Qed.
Lemma simulated_hypotheses minimize savgol J : J 0%nat (3 / 2) <> 0 -> J 1%nat (3 / 2) <> 0 -> (J 0%nat (3 / 2)) ^ 2 <> 1 -> forall dspline inv vmax, let o := shown (Some (RtoC 0)) (Some (25 / 100, 8 / 10)) None None in exists d u r vt a,
  dc_data insertion_argsort minimize savgol ones dspline file None o = Ok d /\ 0 < dc_vgap (d_dc d) /\ 0 < o_vmax o /\ (2 <= o_npts o)%nat /\
  pumped_data insertion_argsort savgol J (pumped_file J) d (Some hot_file) (Some cold_file) o = Ok u /\ o_freq o = Some 230 /\ / 10000 < 230 * 10 ^ 9 / dc_fgap (d_dc d) /\ o_fit_range o = Some (25 / 100, 8 / 10) /\
  u_recovered u = Some r /\ rec_zt r = RtoC 0 /\ rec_vt r = FV vt /\ plot_simulated J inv d u o vmax = Ok a.
Proof.
  intros J0 J1 J2 dspline inv vmax o. destruct (shown_recovered minimize savgol J J0 J1 J2 dspline (Some (RtoC 0)) (Some (25 / 100, 8 / 10)) None None (or_introl eq_refl)) as [d [u [r [al [D [U [G [RN [VP [_ [UR [RR [_ [_ [_ [_ Z]]]]]]]]]]]]]]]].
  destruct (Z eq_refl) as [ZT [V VT]].
  destruct (simulated_zero insertion_argsort minimize savgol J ones dspline inv file None o d (pumped_file J) (Some hot_file) (Some cold_file) o u 230 r V vmax) as [a [y1 [y2 [E _]]]]; try assumption; try reflexivity; try (rewrite G; lra); try (cbn; lra); try (cbn; lia).
  exists d, u, r, V, a. split; [exact D|]. split; [rewrite G; lra|]. split; [cbn; lra|]. split; [cbn; lia|]. split; [exact U|]. split; [reflexivity|]. split; [lra|]. split; [reflexivity|]. auto.
Qed.
Lemma surface_hypotheses minimize savgol J : J 0%nat (3 / 2) <> 0 -> J 1%nat (3 / 2) <> 0 -> (J 0%nat (3 / 2)) ^ 2 <> 1 -> forall dspline, let o := shown None (Some (25 / 100, 8 / 10)) None None in exists d u r al a,
  dc_data insertion_argsort minimize savgol ones dspline file None o = Ok d /\ pumped_data insertion_argsort savgol J (pumped_file J) d (Some hot_file) (Some cold_file) o = Ok u /\
  u_recovered u = Some r /\ plot_error_surface d u o = Ok a /\
  let idc := idc (d_resp d) in let ikk := ikk (d_resp d) in let vph := 230 * 10 ^ 9 / dc_fgap (d_dc d) in
  let B := step_samples vph (25 / 100) (8 / 10) (u_voltage u) (u_current u) in
  find_alpha J idc (map fst B) (map snd B) vph (o_alpha_max o) (o_num_b o) = Ok al /\ B <> [] /\
  (forall p, In p (List.combine B al) -> ac_current J idc ikk vph (snd p) (o_num_b o) (fst (fst p)) <> RtoC 0) /\
  (forall i j, (i <= 100)%nat -> (j <= 200)%nat -> connectable (map (fun p => junction_sample J idc ikk vph (o_num_b o) (fst (fst p)) (snd p)) (List.combine B al)) (grid_point (o_remb_range o) (o_xemb_range o) i j)).
Proof.
  intros J0 J1 J2 dspline o. destruct (shown_recovered minimize savgol J J0 J1 J2 dspline None (Some (25 / 100, 8 / 10)) None None (or_introl eq_refl)) as [d [u [r [al [D [U [G [RN [VP [_ [UR [RR [EA [BN [NZ [CO _]]]]]]]]]]]]]]]].
  exists d, u, r, al. unfold plot_error_surface, rec_results. rewrite UR. cbn [bind]. eexists. split; [exact D|]. split; [exact U|]. split; [reflexivity|]. split; [reflexivity|]. auto.
Qed.
