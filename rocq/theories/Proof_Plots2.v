(** The figures of a measured curve: what is marked wrongly. *)
From Coq Require Import List ZArith Lia Bool Arith Reals Lra String.
From Coquelicot Require Import Complex.
From Verif Require Import Base Model_QtCurrent Spec_QtCurrent Float NumPy Spec_CleanData Proof_CleanData Model_CleanData Model_MathFn Spec_MathFn Spec_RespFn Model_RespFn Spec_IVData Model_IVData Spec_IFData Model_IFData
  Model_Tucker Model_ExpData Spec_ExpData Model_Objects Spec_Objects Spec_Objects2 Model_Misc Model_Print Model_Plots Spec_Plots Proof_Circuit Proof_NumPy Proof_IVModels Proof_IVLoad Proof_IVData Proof_IVCurve Proof_IFNoise Proof_IFLoad
  Proof_RespFn Proof_RespFn2 Proof_Filters Proof_IFShot Proof_IFCases Proof_Recover2 Proof_Objects Proof_Objects2 Proof_Objects3 Proof_Objects4.
From Verif Require Import Model_Misc Model_Objects.
From Verif Require Import Proof_Plots.
Import ListNotations.
Open Scope R_scope.
Local Notation length := List.length.
Local Notation rising := Spec_RespFn.increasing.

(** A least-squares line through samples on a line is that line. *)
Lemma deviation_zero P a b : deviation P a b <= 0 -> on_the_line P a b.
Proof.
  unfold deviation. intros H p Hp. assert (N : forall Q, 0 <= fold_right Rplus 0 (map (fun p => (snd p - (a * fst p + b)) ^ 2) Q)).
  { induction Q as [|q Q IH]; cbn [map fold_right]; [lra|]. pose proof (pow2_ge_0 (snd q - (a * fst q + b))). lra. }
  induction P as [|q P IH]; [destruct Hp|]. cbn [map fold_right] in H. pose proof (pow2_ge_0 (snd q - (a * fst q + b))) as Q0. pose proof (N P) as N0. destruct Hp as [<-|Hp].
  - assert (Z : (snd q - (a * fst q + b)) ^ 2 = 0) by lra. cbn [pow] in Z. rewrite Rmult_1_r in Z. apply Rsqr_0_uniq in Z. lra.
  - apply IH; [lra|assumption].
Qed.
Lemma best_exact P a b a' b' : spread P -> on_the_line P a' b' -> best_line P a b -> a = a' /\ b = b'.
Proof.
  intros [p [q [HP [HQ N]]]] L B. assert (Z : deviation P a' b' = 0).
  { unfold deviation. clear - L. induction P as [|q P IH]; [reflexivity|]. cbn [map fold_right]. rewrite IH by (intros r R; apply L; now right). rewrite (L q (or_introl eq_refl)). ring. }
  specialize (B a' b'). rewrite Z in B. apply deviation_zero in B. pose proof (B p HP) as B1. pose proof (B q HQ) as B2. rewrite (L p HP) in B1. rewrite (L q HQ) in B2.
  assert (E : (a - a') * (fst p - fst q) = 0) by lra. apply Rmult_integral in E. assert (a = a') by (destruct E; [lra|exfalso; lra]). subst a'. split; [reflexivity|lra].
Qed.

(** ** The shot-noise line of the IF noise figure *)
Lemma noise_line argsort minimize savgol spline dspline m f o d v q c vs : sorting argsort -> dc_data argsort minimize savgol spline dspline m f o = Ok d -> d_if d = Some (v, q, c) -> 0 < dc_vgap (d_dc d) -> 0 < o_vmax o -> (2 <= o_ifdata_npts o)%nat ->
  o_vshot o = Some vs -> ranges_of vs <> [] -> let V := millivolts (d_dc d) v in
  exists b, List.combine (millivolts (d_dc d) (fst (if_shot c))) (map FV (snd (if_shot c))) = map (fun x => (x, FV (58 / 10 * x + b))) V /\
    on_curve V (map (fun x => 58 / 10 * x + b) V) (dc_vint (d_dc d) * 10 ^ 3) (if_noise c).
Proof.
  intros S D E G M N VS RG V. destruct (dc_inv _ _ _ _ _ _ _ _ _ D) as [_ [_ [_ [_ F]]]]. destruct f as [mf|]; [|rewrite F in E; discriminate]. destruct F as [r [F E']]. rewrite E in E'. injection E' as <-.
  pose proof F as GR. apply dcif_inv in GR; [|assumption]. destruct GR as [p1 [GR _]]. apply load_grid in GR; [|assumption]. destruct GR as [_ [EV _]]. cbn [if_options q_npts] in EV. 
  destruct (dcif_calibrated savgol argsort mf (d_dc d) (if_options o) vs v q c S F VS RG G M N) as [p0 [a [b [_ [_ [_ [_ [A0 [CA [SH [JN _]]]]]]]]]]].
  exists (b * if_corr c). set (g := dc_vgap (d_dc d)) in *. rewrite SH in *. cbn [fst snd] in *. assert (EL : map (fun x => 58 / 10 * x + b * if_corr c) V = map (fun t => (a * t + b) * if_corr c) v).
  { unfold V, millivolts. rewrite map_map. apply map_ext. intros t. fold g. replace ((a * t + b) * if_corr c) with (if_corr c * a * t + b * if_corr c) by ring. rewrite CA. field. }
  split.
  - unfold V, millivolts. fold g. rewrite !map_map. clear - CA. induction v as [|t v IH]; [reflexivity|]. cbn [map List.combine]. rewrite IH. f_equal. do 2 f_equal. replace ((a * t + b) * if_corr c) with (if_corr c * a * t + b * if_corr c) by ring. rewrite CA. field.
  - rewrite EL. assert (RV : rising v). { rewrite EV. apply linspace_rising; [|assumption]. cbn [if_options q_vmax]. apply Rdiv_lt_0_compat; assumption. }
    assert (L1 : (1 <= length v)%nat) by (rewrite EV, linspace_length; lia).
    replace (dc_vint (d_dc d) * 10 ^ 3) with (dc_vint (d_dc d) / g * (g * 10 ^ 3)) by (field; lra). replace (if_noise c) with (if_noise c * 1) by ring. replace (map (fun t => (a * t + b) * if_corr c) v) with (map (fun x => x * 1) (map (fun t => (a * t + b) * if_corr c) v)) by (rewrite map_map; apply map_ext; intros; ring).
    apply on_curve_scaled; [assumption|apply map_length|assumption|lra|exact JN].
Qed.

Lemma noise_shown argsort minimize savgol spline dspline m f o d v q c vs : sorting argsort -> dc_data argsort minimize savgol spline dspline m f o = Ok d -> d_if d = Some (v, q, c) -> 0 < dc_vgap (d_dc d) -> 0 < o_vmax o -> (2 <= o_ifdata_npts o)%nat ->
  o_vshot o = Some vs -> ranges_of vs <> [] -> exists r, plot_if_noise d = Ok r.
Proof.
  intros S D E G M N VS RG. destruct (dc_igap_eq _ _ _ _ _ _ _ _ _ D) as [RN IG]. destruct (dc_inv _ _ _ _ _ _ _ _ _ D) as [A [_ [_ [_ F]]]]. destruct (dciv_vgap _ _ _ _ _ _ _ _ A) as [_ [_ [_ LV]]]. destruct f as [mf|]; [|rewrite F in E; discriminate]. destruct F as [r [F E']]. rewrite E in E'. injection E' as <-.
  pose proof F as GR. apply dcif_inv in GR; [|assumption]. destruct GR as [p1 [GR [EQ _]]]. apply load_grid in GR; [|assumption]. destruct GR as [_ [EV LP]]. cbn [if_options q_npts] in EV, LP.
  destruct (dcif_calibrated savgol argsort mf (d_dc d) (if_options o) vs v q c S F VS RG G M N) as [p0 [a [b [_ [_ [_ [_ [A0 [CA [SH [JN _]]]]]]]]]]].
  assert (LQ : length q = length v) by (rewrite EQ, map_length, EV, linspace_length; assumption).
  unfold plot_if_noise. rewrite E. rewrite !quot_eq by assumption. cbn [bind]. rewrite SH. cbn [fst snd]. rewrite !curve_ok by (unfold in_units, Model_Plots.numbers; rewrite ?map_length; congruence). cbn [bind].
  destruct (amax_some (in_units v (dc_vgap (d_dc d) * 10 ^ 3))) as [top ->]; [|cbn [bind]; eexists; reflexivity]. intros Z. apply (f_equal (@length _)) in Z. unfold in_units in Z. rewrite map_length, EV, linspace_length in Z. cbn in Z. lia.
Qed.

(** ** Figure of the DC I-V curve *)
Definition leaky : options := {|
  o_v_fmt := "mV"%string; o_i_fmt := "mA"%string; o_vmax := 6 / 10 ^ 3; o_npts := 61;
  o_ioffset := None; o_voffset := None; o_voffset_range := Limits (- (1 / 10 ^ 3)) (1 / 10 ^ 3);
  o_rseries := None; o_i_multiplier := 1; o_v_multiplier := 1; o_ifdata_npts := 7;
  o_filter_data := false; o_filter_theta := 785 / 1000; o_filter_nwind := 21%Z; o_filter_npoly := 3%Z;
  o_ifdata_sigma := None; o_analyze_iv := true; o_analyze_if := true; o_area := 15 / 10;
  o_freq := Some 230; o_vgap := Some (3 / 10 ^ 3); o_vrn := (35 / 10 ^ 4, 45 / 10 ^ 4); o_vrsg := 2 / 10 ^ 3;
  o_vleak := 45 / 10 ^ 4; o_vshot := Some (One (-1) 1); o_fit_range := Some (25 / 100, 8 / 10); o_remb_range := (1, 2);
  o_xemb_range := (-1, 1); o_zemb := None; o_alpha_max := 3 / 2; o_num_b := 0%nat; o_t_cold := 78;
  o_t_hot := 293; o_vbest := Some (3 / 10 ^ 3); o_best_pt := "Max Gain"%string; o_v_smear := Some (20 / 1000);
  o_cut_low := None; o_cut_high := None |}.
Section Case.
Variable minimize : (R * R -> R) -> R * R -> R * R.
Variable savgol : list R -> Z -> Z -> list R.
Variable dspline : list R -> list R -> Z -> R -> R.
Local Notation DC := (dc_data insertion_argsort minimize savgol ones dspline).
Lemma leaky_data : exists d, DC file None leaky = Ok d /\ dc_vgap (d_dc d) = 3 / 10 ^ 3 /\ dc_rsg (d_dc d) = 10 /\
  let V := millivolts (d_dc d) (d_voltage d) in let I := microamps (d_dc d) (d_current d) in length V = 61%nat /\ length I = 61%nat /\
  forall k, (k < 61)%nat -> nth k V 0 = - 6 + INR k / 5 /\ (nth k V 0 = 2 -> nth k I 0 = 200) /\ (42 / 10 <= nth k V 0 <= 48 / 10 -> nth k I 0 = 300 * nth k V 0 - 840).
Proof.
  destruct (file_case minimize savgol ones dspline leaky (/ (1 / 10)) (- 0 / (1 / 10)) (3 / 10 ^ 3)) as [d [D [RN [G [IG [O _]]]]]]; try reflexivity; try lra; try exact file_documented; try (cbn; lra); try (cbn; lia).
  { exists 40%nat. split; [cbn; lia|]. cbn [leaky o_vmax o_npts Nat.sub]. replace (INR 60) with 60 by (rewrite INR_IZR_INZ; reflexivity). replace (INR 40) with 40 by (rewrite INR_IZR_INZ; reflexivity). lra. }
  exists d. split; [assumption|]. split; [assumption|]. destruct (dc_arguments insertion_argsort minimize savgol ones dspline file None leaky d insertion_sorts D) as [v [i [x [y [LD [_ [FI [JC [_ [[b RS] [_ [LV [LI [GR JO]]]]]]]]]]]]]].
  set (u := fun a => a * / 10 ^ 3) in *. set (v0 := map u [195 / 100; 205 / 100; 36 / 10; 42 / 10; 48 / 10]). set (i0 := map u [195 / 1000; 205 / 1000; 36 / 100; 42 / 100; 60 / 100]).
  assert (L0 : load_iv insertion_argsort file "mV" "mA" = Ok (map FV v0, map FV i0)).
  { unfold v0, i0. rewrite !map_map. apply (load_rising insertion_argsort "mV" "mA" (/ 10 ^ 3) (/ 10 ^ 3)); try reflexivity; [exact insertion_sorts|cbn; lia|]. cbn [List.length]. intros j k IJ K. destruct j as [|[|[|[|[|j]]]]], k as [|[|[|[|[|k]]]]]; try lia; cbn; lra. }
  cbn [leaky o_v_fmt o_i_fmt] in LD. rewrite L0 in LD. apply ok_inj in LD. assert (EV : v0 = v) by (apply FV_lists; exact (f_equal fst LD)). assert (EI : i0 = i) by (apply FV_lists; exact (f_equal snd LD)). subst v i. clear LD L0.
  unfold filter_iv_data in FI. cbn [leaky o_filter_data negb] in FI. apply ok_inj in FI. pose proof (f_equal fst FI) as F1. pose proof (f_equal snd FI) as F2. cbn [fst snd] in F1, F2. rewrite O in F1, F2. cbn [fst snd leaky o_v_multiplier o_i_multiplier] in F1, F2. cbn [leaky o_rseries junction_curve] in JC. destruct JC as [-> ->]. rewrite <- F1, <- F2 in RS, JO. clear F1 F2 FI.
  assert (EX : map (fun a => a * 1 - 0) v0 = file_v) by (unfold file_v, v0, u; rewrite !map_map; reflexivity). assert (EY : map (fun a => a * 1 - 0) i0 = file_i) by (unfold file_i, i0, u; rewrite !map_map; reflexivity). rewrite EX, EY in RS, JO.
  assert (RV : rising file_v). { unfold file_v. cbn [map]. cbn [List.length]. intros j k IJ K. cbn [List.length] in K. destruct j as [|[|[|[|[|j]]]]], k as [|[|[|[|[|k]]]]]; try lia; cbn; lra. }
  specialize (JO RV ltac:(lra)). split.
  - assert (W : samples_within (2 / 10 ^ 3 - 1 / 10 ^ 4) (2 / 10 ^ 3 + 1 / 10 ^ 4) file_v file_i = List.combine (firstn 2 file_v) (firstn 2 file_i)) by (within; reflexivity).
    cbn [leaky o_vrsg] in RS. rewrite W in RS. apply (best_exact _ _ _ (1 / 10) 0) in RS.
    + destruct RS as [RS _]. rewrite <- (Rinv_inv (dc_rsg (d_dc d))). rewrite RS. field.
    + eexists. eexists. split; [left; reflexivity|]. split; [right; left; reflexivity|]. cbn. lra.
    + intros p Hp. cbn in Hp. destruct Hp as [<-|[<-|[]]]; cbn; lra.
  - cbv zeta. unfold millivolts, microamps. rewrite !map_length. split; [assumption|]. split; [assumption|]. intros k K. rewrite !(nth_map_in _ _ _ _ 0) by (cbn [leaky o_npts] in LV, LI; lia).
    specialize (JO k K). specialize (GR k K). set (t := nth k (d_voltage d) 0 * dc_vgap (d_dc d)) in *. set (c := nth k (d_current d) 0 * dc_igap (d_dc d)) in *.
    replace (nth k (d_voltage d) 0 * (dc_vgap (d_dc d) * 10 ^ 3)) with (t * 10 ^ 3) by (unfold t; ring). replace (nth k (d_current d) 0 * (dc_igap (d_dc d) * 10 ^ 6)) with (c * 10 ^ 6) by (unfold c; ring).
    cbn [leaky o_vmax o_npts Nat.sub] in GR. replace (INR 60) with 60 in GR by (rewrite INR_IZR_INZ; reflexivity). destruct JO as [_ [_ [_ JO]]]. split; [rewrite GR; field|]. split; intros T.
    + specialize (JO 0%nat ltac:(cbn; lia)). cbn [file_v file_i map nth] in JO. assert (ET : t = 2 / 10 ^ 3) by lra. rewrite ET in JO. rewrite JO by lra. field.
    + specialize (JO 3%nat ltac:(cbn; lia)). cbn [file_v file_i map nth] in JO. rewrite JO by lra. field.
Qed.
Lemma leaky_case : exists d a leak s b, DC file None leaky = Ok d /\ 0 < dc_vgap (d_dc d) /\ plot_dciv d (o_vleak leaky) 5 = Ok a /\
  nth_error (g_items a) 2 = Some (Curve ("$I_\mathrm{{leak}}$ = " ++ fixed false 0 2 leak ++ " $\mu$A") [2] [FV leak]) /\
  nth_error (g_items a) 4 = Some (Curve ("$R_\mathrm{{sg}}$ = " ++ fixed false 0 1 (dc_rsg (d_dc d)) ++ " $\Omega$") (millivolts (d_dc d) (d_voltage d)) (map (fun x => FV (s * x + b)) (millivolts (d_dc d) (d_voltage d)))) /\
  ~ on_curve (millivolts (d_dc d) (d_voltage d)) (microamps (d_dc d) (d_current d)) 2 leak /\ s * dc_rsg (d_dc d) = 3 * 10 ^ 3.
Proof.
  destruct leaky_data as [d [D [G [RS [LV [LI S]]]]]]. set (V := millivolts (d_dc d) (d_voltage d)) in *. set (I := microamps (d_dc d) (d_current d)) in *.
  assert (E2 : INR 52 = 52 /\ INR 53 = 53 /\ INR 40 = 40) by (rewrite !INR_IZR_INZ; auto). destruct E2 as [N52 [N53 N40]].
  destruct (S 52%nat ltac:(lia)) as [V52 [_ I52]]. destruct (S 53%nat ltac:(lia)) as [V53 [_ I53]]. destruct (S 40%nat ltac:(lia)) as [V40 [I40 _]]. rewrite N52 in V52. rewrite N53 in V53. rewrite N40 in V40. specialize (I52 ltac:(lra)). specialize (I53 ltac:(lra)). specialize (I40 ltac:(lra)).
  assert (SP : spread (samples_within (o_vleak leaky * 10 ^ 3 - 2 / 10) (o_vleak leaky * 10 ^ 3 + 2 / 10) V I)).
  { exists (nth 52 V 0, nth 52 I 0), (nth 53 V 0, nth 53 I 0). rewrite <- !combine_nth by congruence. unfold samples_within. cbn [leaky o_vleak]. split; [|split].
    - apply filter_In. split; [apply nth_In; rewrite combine_length; lia|]. rewrite combine_nth by congruence. cbn [fst]. rewrite V52. destruct (Rlt_dec _ _); [|exfalso; lra]. destruct (Rlt_dec _ _); [reflexivity|exfalso; lra].
    - apply filter_In. split; [apply nth_In; rewrite combine_length; lia|]. rewrite combine_nth by congruence. cbn [fst]. rewrite V53. destruct (Rlt_dec _ _); [|exfalso; lra]. destruct (Rlt_dec _ _); [reflexivity|exfalso; lra].
    - rewrite !combine_nth by congruence. cbn [fst]. lra. }
  assert (OL : on_the_line (samples_within (o_vleak leaky * 10 ^ 3 - 2 / 10) (o_vleak leaky * 10 ^ 3 + 2 / 10) V I) 300 (- 840)).
  { intros p Hp. unfold samples_within in Hp. apply filter_In in Hp. destruct Hp as [Hp W]. apply (In_nth _ _ (0, 0)) in Hp. destruct Hp as [k [K <-]]. rewrite combine_length in K. rewrite combine_nth in W |- * by congruence. cbn [fst snd leaky o_vleak] in *. destruct (S k ltac:(lia)) as [_ [_ Ik]].
    destruct (Rlt_dec _ _) as [R1|]; [|discriminate]. destruct (Rlt_dec _ _) as [R2|]; [|discriminate]. rewrite Ik by lra. ring. }
  destruct (dciv_total insertion_argsort minimize savgol ones dspline file None leaky d 5 D ltac:(lra) ltac:(cbn; lra) ltac:(cbn; lia) SP) as [a A].
  destruct (dciv_figure insertion_argsort minimize savgol ones dspline file None leaky d 5 a D ltac:(lra) ltac:(cbn; lra) ltac:(cbn; lia) A) as [gap [leak [s [b [k [SH [_ [LK [BL _]]]]]]]]]. cbv zeta in *. fold V I in SH, LK, BL.
  destruct (best_exact _ _ _ _ _ SP OL BL) as [-> ->]. exists d, a, leak, 300, (- 840). split; [assumption|]. split; [lra|]. split; [assumption|]. unfold shows in SH. rewrite SH. cbn [map app fst snd nth_error mark]. split; [reflexivity|]. split; [rewrite !map_map; cbn [fst snd]; rewrite map_id; reflexivity|]. split; [|rewrite RS; ring].
  intros [_ [_ [OC _]]]. unfold on_curve, joined in *. fold V in OC. specialize (OC 40%nat ltac:(fold V; rewrite LV; lia) ltac:(fold V; lra)). fold I in OC. rewrite I40 in OC. destruct LK as [_ [_ [_ LK]]]. specialize (LK 52%nat ltac:(rewrite LV; lia)). rewrite V52, V53, I52, I53, V52, V53 in LK. cbn [leaky o_vleak] in LK. rewrite OC in LK. specialize (LK ltac:(lra)). lra.
Qed.
End Case.
