(** The keyword arguments of the data objects. *)
From Coq Require Import List ZArith Lia Bool Arith Reals Lra String.
From Coquelicot Require Import Complex.
From Verif Require Import Base Spec_Case Proof_CaseIF Model_QtCurrent Float NumPy Spec_CleanData Proof_CleanData Model_CleanData Model_MathFn Spec_RespFn Model_RespFn Spec_IVData Spec_Offset Model_IVData Spec_IFData Model_IFData
  Model_Tucker Model_ExpData Spec_ExpData Model_Objects Spec_Objects Spec_IFShot Spec_Objects2 Proof_Circuit Proof_IVModels Proof_NumPy Proof_IVLoad Proof_IVData Proof_IVCurve Proof_IVCurve2 Proof_IVCases Proof_IFNoise Proof_IFLoad Proof_IFLoad2 Proof_IFShot Proof_IFCases Proof_IFShot2
  Proof_RespFn2 Proof_ExpData Proof_Recover3 Proof_Objects Proof_Objects2.
Import ListNotations.
Open Scope R_scope.
Local Notation length := List.length.
Local Notation Forall := List.Forall.
Local Notation rising := Spec_RespFn.increasing.

Section Oracles.
Variable argsort : list fl -> list nat.
Variable minimize : (R * R -> R) -> R * R -> R * R.
Variable savgol : list R -> Z -> Z -> list R.
Variable J : nat -> R -> R.
Variable spline dspline : list R -> list R -> Z -> R -> R.
Local Notation DC := (dc_data argsort minimize savgol spline dspline).
Local Notation PUMPED := (pumped_data argsort savgol J).

(** ** I-V curves *)
Lemma dc_arguments m f o d : sorting argsort -> DC m f o = Ok d ->
  exists v i x y, load_iv argsort m (o_v_fmt o) (o_i_fmt o) = Ok (map FV v, map FV i) /\
    (let range := search_range (o_voffset_range o) in let V := map (fun a => a * o_v_multiplier o) v in let I := map (fun a => a * o_i_multiplier o) i in
     (~ bipolar range V -> dc_offset (d_dc d) = (match o_voffset o with Some a => a | None => 0 end, match o_ioffset o with Some b => b | None => 0 end)) /\
     (bipolar range V -> searched minimize (samples_between range V I) range (o_voffset o) (o_ioffset o) (dc_offset (d_dc d)))) /\
    filter_iv_data savgol (map (fun a => a * o_v_multiplier o - fst (dc_offset (d_dc d))) v) (map (fun a => a * o_i_multiplier o - snd (dc_offset (d_dc d))) i)
      (o_filter_data o) (o_filter_nwind o) (o_filter_npoly o) (o_filter_theta o) (o_npts o) = Ok (dc_vraw (d_dc d), dc_iraw (d_dc d)) /\
    junction_curve (o_rseries o) (dc_vraw (d_dc d)) (dc_iraw (d_dc d)) x y /\
    best_line (samples_within (fst (o_vrn o)) (snd (o_vrn o)) x y) (/ dc_rn (d_dc d)) (- dc_vint (d_dc d) / dc_rn (d_dc d)) /\
    (exists b, best_line (samples_within (o_vrsg o - 1 / 10 ^ 4) (o_vrsg o + 1 / 10 ^ 4) x y) (/ dc_rsg (d_dc d)) b) /\
    match o_vgap o with Some g => dc_vgap (d_dc d) = g | None => find_gap_voltage x y (o_vrn o) = Ok (dc_vgap (d_dc d)) end /\
    length (d_voltage d) = o_npts o /\ length (d_current d) = o_npts o /\
    (forall k, (k < o_npts o)%nat -> nth k (d_voltage d) 0 * dc_vgap (d_dc d) = - o_vmax o + INR k * (2 * o_vmax o / INR (o_npts o - 1))) /\
    (rising x -> 0 < dc_vgap (d_dc d) -> forall k, (k < o_npts o)%nat ->
       joined x y (nth 0 y 0) (nth (length x - 1) y 0) (nth k (d_voltage d) 0 * dc_vgap (d_dc d)) (nth k (d_current d) 0 * dc_igap (d_dc d))).
Proof.
  intros S D. destruct (dc_inv _ _ _ _ _ _ _ _ _ D) as [A _]. destruct (dc_curve savgol minimize argsort m (iv_options o) _ _ _ S A) as [v [i [x [y [E1 [E2 [E3 [E4 [E5 [E6 [E7 E8]]]]]]]]]]].
  destruct (dc_metadata _ _ _ _ _ _ _ _ A) as [_ [_ [L1 [L2 [GR _]]]]].
  exists v, i, x, y. cbn [iv_options p_v_fmt p_i_fmt p_voffset_range p_v_multiplier p_i_multiplier p_voffset p_ioffset p_filter_data p_filter_nwind p_filter_npoly p_filter_theta p_npts p_rseries p_vrn p_vrsg p_vgap p_vmax] in *.
  repeat (split; [assumption|]). assumption.
Qed.
Lemma dc_summary_arguments m f o d : DC m f o = Ok d -> 0 < dc_vgap (d_dc d) -> 0 < o_vmax o -> (2 <= o_npts o)%nat ->
  let s := d_summary d in
  s_q s * dc_rn (d_dc d) = dc_rsg (d_dc d) /\ s_rna s = dc_rn (d_dc d) * o_area o / 10 ^ 12 /\ s_jc s * s_rna s = dc_vgap (d_dc d) /\
  exists c, joined (d_voltage d) (d_current d) (nth 0 (d_current d) 0) (nth (length (d_voltage d) - 1) (d_current d) 0) (o_vleak o / dc_vgap (d_dc d)) c /\ s_ileak s = c * dc_igap (d_dc d).
Proof.
  intros D G M N s. destruct (dc_inv _ _ _ _ _ _ _ _ _ D) as [_ [B _]]. destruct (dc_grid_rising argsort minimize savgol spline dspline m f o d D G M N) as [RV LV].
  destruct (dc_summary_spec _ _ _ _ _ _ RV LV B) as [C1 [C2 [C3 [_ C4]]]]. auto.
Qed.
Lemma pumped_arguments m d hot cold o p vo io : sorting argsort -> PUMPED m d hot cold o = Ok p ->
  (o_voffset o = Some vo /\ o_ioffset o = Some io) \/ ((o_voffset o = None \/ o_ioffset o = None) /\ dc_offset (d_dc d) = (vo, io)) ->
  exists v i xf yf x y, load_iv argsort m (o_v_fmt o) (o_i_fmt o) = Ok (map FV v, map FV i) /\
    filter_iv_data savgol (map (fun a => a * o_v_multiplier o - vo) v) (map (fun a => a * o_i_multiplier o - io) i)
      (o_filter_data o) (o_filter_nwind o) (o_filter_npoly o) (o_filter_theta o) (o_npts o) = Ok (xf, yf) /\
    junction_curve (o_rseries o) xf yf x y /\ length (u_voltage p) = o_npts o /\ length (u_current p) = o_npts o /\
    (forall k, (k < o_npts o)%nat -> nth k (u_voltage p) 0 * dc_vgap (d_dc d) = - o_vmax o + INR k * (2 * o_vmax o / INR (o_npts o - 1))) /\
    (rising x -> 0 < dc_vgap (d_dc d) -> forall k, (k < o_npts o)%nat -> joined x y 0 0 (nth k (u_voltage p) 0 * dc_vgap (d_dc d)) (nth k (u_current p) 0 * dc_igap (d_dc d))).
Proof.
  intros S P OF. destruct (pumped_inv _ _ _ _ _ _ _ _ _ P) as [f [_ [_ [_ [_ [A _]]]]]]. exact (pumped_curve savgol argsort m (d_dc d) (iv_options o) _ _ vo io S A OF).
Qed.

(** ** IF data *)
Lemma loaded_spec m dc o V P : sorting argsort -> load_if argsort m dc (if_options o) = Ok (V, P) -> 0 < dc_vgap dc ->
  loaded_powers argsort dc m (o_v_fmt o) (o_v_multiplier o) (o_rseries o) (o_vmax o) (o_ifdata_npts o) (o_ifdata_sigma o) V P.
Proof.
  intros S H G. destruct (load_general argsort m dc (if_options o) V P S H G) as [u [x [y [x' [U [C [LX [EI [LX' [NX [RX [LV [LP [GR R]]]]]]]]]]]]]].
  cbn [if_options q_v_fmt q_v_multiplier q_rseries q_vmax q_npts q_sigma] in *. exists u, x, y, x'. split; [assumption|]. split; [assumption|]. split; [assumption|]. split; [congruence|]. split; [|repeat (split; [assumption|]); destruct R as [P0 [L0 [J0 SM]]]; exists P0; repeat (split; [assumption|]); now apply smooth_average].
  destruct (o_rseries o) as [rs|]; [|cbn [if_series] in EI; now injection EI]. intros L RV.
  destruct (series_voltages _ _ _ _ L RV EI) as [r [LR [SR [LL JV]]]]. rewrite map_length in LL, JV. exists r. split; [assumption|]. split; [assumption|]. intros k K. specialize (JV k K). rewrite (nth_map_in (fun a => a * o_v_multiplier o - fst (dc_offset dc)) x k 0 0) in JV by assumption. exact JV.
Qed.
Lemma calibrated_spec x y dc s n corr line fit top : length x = length y -> ranges_of s <> [] -> rising x -> find_if_noise savgol x y dc (Some s) = Ok (n, corr, line, fit) ->
  calibrated_by (ranges_of s) dc x y {| if_noise := n; if_corr := corr; if_fit := fit; if_shot := (x, line); if_vmax := top |}.
Proof.
  intros L NE RX F. apply shot_calibration in F; [|assumption|assumption]. destruct F as [a [b [BL [NF [_ [A [C [LI [JJ FI]]]]]]]]]. exists a, b. cbn [if_noise if_corr if_fit if_shot snd]. split; [assumption|]. split; [assumption|]. split; [assumption|]. split; [assumption|]. split; [now rewrite LI|]. split; [now apply JJ|assumption].
Qed.
Lemma dcif_arguments m mif o d v q c : sorting argsort -> DC m (Some mif) o = Ok d -> d_if d = Some (v, q, c) -> 0 < dc_vgap (d_dc d) ->
  exists P, loaded_powers argsort (d_dc d) mif (o_v_fmt o) (o_v_multiplier o) (o_rseries o) (o_vmax o) (o_ifdata_npts o) (o_ifdata_sigma o) v P /\ q = map (fun a => a * if_corr c) P /\
    (0 < o_vmax o -> (2 <= o_ifdata_npts o)%nat -> if_vmax c = o_vmax o /\
      (forall vs, o_vshot o = Some vs -> ranges_of vs <> [] -> calibrated_by (ranges_of vs) (d_dc d) v P c) /\
      (o_vshot o = None -> keeps_length savgol -> calibrated_alone savgol (d_dc d) v P c)).
Proof.
  intros S D E G. destruct (dc_inv _ _ _ _ _ _ _ _ _ D) as [_ [_ [_ [_ [r [F K]]]]]]. rewrite E in K. injection K as <-. pose proof F as F0. apply dcif_inv in F; [|assumption]. destruct F as [p0 [L [EP [FN FS]]]].
  exists p0. split; [now apply loaded_spec|]. split; [assumption|]. intros VM NP. split; [exact (dcif_top savgol argsort mif (d_dc d) (if_options o) v q c S F0 G VM NP)|]. split; [intros vs VS NE|intros VS KL].
  2: { destruct (dcif_auto savgol KL argsort mif (d_dc d) (if_options o) v q c S F0 VS G VM NP) as [p1 [d1 [d2 [P [a [b [L1 [_ [DE [FO [NE [BL [A [C [SH [JJ [FI _]]]]]]]]]]]]]]]]]. rewrite L in L1. injection L1 as <-. exists d1, d2, P. split; [assumption|]. split; [assumption|]. exists a, b. auto 10. }
  destruct (dcif_calibrated savgol argsort mif (d_dc d) (if_options o) vs v q c S F0 VS NE G VM NP) as [p1 [a [b [L1 [_ [BL [NF [A [C [SH [JJ [FI _]]]]]]]]]]]]. rewrite L in L1. injection L1 as <-. exists a, b. auto 10.
Qed.
Lemma hot_cold_spec Th Tc h c : 0 < Tc < Th -> hot_cold Th Tc h c (tn_at Th Tc h c) (gain_at Th Tc h c).
Proof.
  intros [PC LT]. pose proof limit_gt as LG. assert (EL : y_limit = 1 + / 10 ^ 10) by (unfold y_limit, Rdiv; lra). assert (D : 0 < 10 ^ 10) by (apply pow_lt; lra).
  split; [unfold gain_at; cbn [fdiv]; rewrite Reqb_f by lra; reflexivity|]. split; [|split].
  - intros C H. rewrite <- EL in H. eexists. split; [apply (tn_finite Th Tc h c (h / c)); [now apply y_quot|lra]|]. assert (h <> c) by (intros ->; unfold Rdiv in H; rewrite Rinv_r in H by assumption; lra). field. split; [assumption|lra].
  - intros C H. rewrite <- EL in H. rewrite (tn_finite Th Tc h c y_limit (y_low h c C H)) by lra. f_equal. rewrite EL. clear H LG EL. set (e := 10 ^ 10) in *. clearbody e. replace (1 + / e - 1) with (/ e) by ring. field. lra.
  - intros -> H. now apply tn_nan.
Qed.
Lemma if_arguments m hot cold o d p n f : sorting argsort -> PUMPED m d (Some hot) (Some cold) o = Ok p -> u_if p = Some n -> o_freq o = Some f -> 0 < f -> 0 < o_t_cold o < o_t_hot o -> 0 < dc_vgap (d_dc d) ->
  let Th := callen_welton (f * 10 ^ 9) (o_t_hot o) in let Tc := callen_welton (f * 10 ^ 9) (o_t_cold o) in let c := if_corr (n_dcif n) in
  exists P Q,
    loaded_powers argsort (d_dc d) hot (o_v_fmt o) (o_v_multiplier o) (o_rseries o) (o_vmax o) (o_ifdata_npts o) (o_ifdata_sigma o) (n_voltage n) P /\
    loaded_powers argsort (d_dc d) cold (o_v_fmt o) (o_v_multiplier o) (o_rseries o) (o_vmax o) (o_ifdata_npts o) (o_ifdata_sigma o) (n_voltage n) Q /\
    n_hot n = map (fun a => a * c) P /\ n_cold n = map (fun a => a * c) Q /\ length (n_tn n) = o_ifdata_npts o /\ length (n_gain n) = o_ifdata_npts o /\
    (forall k, (k < o_ifdata_npts o)%nat -> hot_cold Th Tc (nth k (n_hot n) 0) (nth k (n_cold n) 0) (nth k (n_tn n) FNaN) (nth k (n_gain n) FNaN)) /\
    Spec_Objects2.selected (o_vbest o) (o_best_pt o) (dc_vgap (d_dc d)) (n_voltage n) (n_tn n) (n_gain n) (n_best n) /\
    (0 < o_vmax o -> (2 <= o_ifdata_npts o)%nat -> if_vmax (n_dcif n) = o_vmax o /\
      (d_if d = None -> let M := map (fun k => (nth k P 0 + nth k Q 0) / 2) (seq 0 (o_ifdata_npts o)) in
        (forall vs, o_vshot o = Some vs -> ranges_of vs <> [] -> calibrated_by (ranges_of vs) (d_dc d) (n_voltage n) M (n_dcif n)) /\
        (o_vshot o = None -> keeps_length savgol -> calibrated_alone savgol (d_dc d) (n_voltage n) M (n_dcif n)))).
Proof.
  intros S PU E EF PF PT G Th Tc c. destruct (pumped_inv _ _ _ _ _ _ _ _ _ PU) as [f' [F' [_ [_ [_ [_ [_ [_ R]]]]]]]]. destruct (o_analyze_if o); [|congruence]. destruct R as [n' [N' [R _]]]. rewrite E in N'. injection N' as <-. clear F' f'.
  pose proof R as R0. apply if_data_inv in R; [|assumption]. destruct R as [P [Q [LH [LC [LV [LP [LQ [EH [EC [FT [CA [top [AM VM]]]]]]]]]]]]]. cbn [if_options q_npts] in *.
  exists P, Q. split; [now apply loaded_spec|]. split; [now apply loaded_spec|]. split; [assumption|]. split; [assumption|].
  assert (LHN : length (n_hot n) = o_ifdata_npts o) by (now rewrite EH, map_length). assert (LCN : length (n_cold n) = o_ifdata_npts o) by (now rewrite EC, map_length).
  assert (PH : 0 < o_t_hot o) by lra. destruct PT as [PC LT].
  destruct (analysis_lists (n_voltage n) (n_hot n) (n_cold n) (dc_vgap (d_dc d)) (if_options o) f EF PF PH PC ltac:(congruence) ltac:(congruence) _ _ _ FT) as [TN GN]. cbn [if_options q_t_hot q_t_cold] in TN, GN. fold Th Tc in TN, GN.
  assert (TC : 0 < Tc) by (unfold Tc; pose proof (cw_above_T (f * 10 ^ 9) (o_t_cold o) ltac:(apply Rmult_lt_0_compat; [assumption|apply pow_lt; lra]) PC); lra).
  assert (TH : Tc < Th) by (unfold Tc, Th; apply cw_rises; [apply Rmult_lt_0_compat; [assumption|apply pow_lt; lra]|lra]).
  split; [rewrite TN, zip_combine, map_length, combine_length, LHN, LCN; apply Nat.min_id|]. split; [rewrite GN, zip_combine, map_length, combine_length, LHN, LCN; apply Nat.min_id|]. split.
  { intros k K. rewrite TN, GN, !zip_combine. rewrite !(nth_map_in _ (List.combine (n_hot n) (n_cold n)) k _ (0, 0)) by (rewrite combine_length; lia). rewrite combine_nth by congruence. cbn [fst snd]. apply hot_cold_spec. lra. }
  split.
  - unfold Spec_Objects2.selected. destruct (o_vbest o) as [vb|] eqn:VB.
    + refine (if_requested savgol argsort _ _ _ _ (if_options o) f vb _ _ _ _ _ _ _ S EF PF PH PC R0 VB).
    + destruct (same_dec (o_best_pt o) "max gain") as [B1|B1].
      * left. split; [assumption|]. refine (if_max_gain savgol argsort _ _ _ _ (if_options o) f _ _ _ _ _ _ _ S EF PF PH PC _ R0 VB B1). cbn. lra.
      * right. destruct (same_dec (o_best_pt o) "min tn") as [B2|B2].
        -- split; [assumption|]. refine (if_min_tn savgol argsort _ _ _ _ (if_options o) f _ _ _ _ _ _ _ S EF PF _ R0 VB B2). cbn. lra.
        -- exfalso. exact (if_unknown savgol argsort _ _ _ _ (if_options o) f _ S EF PF PH PC VB B1 B2 R0).
  - intros VMX NP. apply load_grid in LH; [|assumption]. destruct LH as [_ [EV _]]. cbn [if_options q_vmax q_npts] in EV. split; [rewrite VM; now apply (top_voltage (n_voltage n) (dc_vgap (d_dc d)) (o_vmax o) (o_ifdata_npts o))|].
    intros ND. set (M := map (fun k => (nth k P 0 + nth k Q 0) / 2) (seq 0 (o_ifdata_npts o))). assert (RV : rising (n_voltage n)) by (rewrite EV; apply linspace_rising; [apply Rdiv_lt_0_compat; assumption|assumption]). assert (LM : length (n_voltage n) = length M) by (unfold M; rewrite map_length, seq_length; assumption).
    assert (EA : average P Q = M).
    { unfold average, M. transitivity (zipwith (fun a b => (a + b) / 2) (map (fun k => nth k P 0) (seq 0 (o_ifdata_npts o))) (map (fun k => nth k Q 0) (seq 0 (o_ifdata_npts o)))); [f_equal; apply list_tab; congruence|]. apply (zipwith_tab (fun a b => (a + b) / 2)). }
    unfold Model_Objects.calibration in CA. rewrite ND in CA. unfold Proof_IFShot.calibration in CA. cbn [if_options q_vshot] in CA. rewrite EA in CA. split.
    + intros vs VS NE. rewrite VS in CA. destruct (find_if_noise savgol (n_voltage n) M (d_dc d) (Some vs)) as [[[[a b] l] g]|] eqn:FN; [|discriminate]. cbn [rmap] in CA. injection CA as C1 C2 C3 C4.
      apply calibrated_spec with (top := if_vmax (n_dcif n)) in FN; [|assumption|assumption|assumption]. rewrite C1, C2, C3, C4 in FN. destruct (n_dcif n). exact FN.
    + intros VS KL. rewrite VS in CA. destruct (find_if_noise savgol (n_voltage n) M (d_dc d) None) as [[[[a b] l] g]|] eqn:FN; [|discriminate]. cbn [rmap] in CA. injection CA as C1 C2 C3 C4.
      apply (auto_calibration savgol KL) in FN; [|assumption]. destruct FN as [d1 [d2 [S' [a' [b' [DE [FO [BL [NF [_ [A [C [LI [JJ FI]]]]]]]]]]]]]]. exists d1, d2, S'. split; [assumption|]. split; [assumption|]. exists a', b'.
      rewrite <- C1, <- C2, <- C3, <- C4. cbn [snd]. do 4 (split; [assumption|]). split; [now rewrite LI|]. split; [now apply JJ|assumption].
Qed.

(** ** Recovery *)
Lemma recovery_arguments m d hot cold o p f r lo hi : PUMPED m d hot cold o = Ok p -> o_freq o = Some f -> u_recovered p = Some r -> o_fit_range o = Some (lo, hi) ->
  let idc := idc (d_resp d) in let ikk := ikk (d_resp d) in let vph := f * 10 ^ 9 / dc_fgap (d_dc d) in
  let B := step_samples vph lo hi (u_voltage p) (u_current p) in
  exists al mid, find_alpha J idc (map fst B) (map snd B) vph (o_alpha_max o) (o_num_b o) = Ok al /\ (mid < length B)%nat /\
  (forall k, (k < length B)%nat -> Rabs (fst (nth mid B (0, 0)) - (1 - vph / 2)) <= Rabs (fst (nth k B (0, 0)) - (1 - vph / 2))) /\
  rec_alpha r = nth mid al 0 /\
  (ac_current J idc ikk vph (nth mid al 0) (o_num_b o) (fst (nth mid B (0, 0))) <> RtoC 0 -> rec_zw r = Some (snd (junction_sample J idc ikk vph (o_num_b o) (fst (nth mid B (0, 0))) (nth mid al 0)))) /\
  let pts := map (fun p => junction_sample J idc ikk vph (o_num_b o) (fst (fst p)) (snd p)) (List.combine B al) in
  ((forall p, In p (List.combine B al) -> ac_current J idc ikk vph (snd p) (o_num_b o) (fst (fst p)) <> RtoC 0) ->
   (forall i j, (i <= 100)%nat -> (j <= 200)%nat -> connectable pts (grid_point (o_remb_range o) (o_xemb_range o) i j)) ->
   match o_zemb o with
   | None => exists i j V, (i <= 100)%nat /\ (j <= 200)%nat /\ rec_zt r = grid_point (o_remb_range o) (o_xemb_range o) i j /\ rec_vt r = FV V /\
       (forall i' j' V', (i' <= 100)%nat -> (j' <= 200)%nat -> mismatch pts (rec_zt r) V <= mismatch pts (grid_point (o_remb_range o) (o_xemb_range o) i' j') V') /\
       (rec_fit r = true <-> mismatch pts (rec_zt r) V <= 7 / 10 ^ 7)
   | Some z => connectable pts z -> rec_zt r = z /\ (exists V, rec_vt r = FV V /\ forall V', mismatch pts z V <= mismatch pts z V') /\
       (rec_fit r = true <-> exists i j V, (i <= 100)%nat /\ (j <= 200)%nat /\ mismatch pts (grid_point (o_remb_range o) (o_xemb_range o) i j) V <= 7 / 10 ^ 7)
   end).
Proof.
  intros PU F R FR idc0 ikk0 vph B. destruct (pumped_inv _ _ _ _ _ _ _ _ _ PU) as [f' [F' [_ [_ [_ [IV [_ [RE _]]]]]]]]. rewrite F in F'. injection F' as <-. destruct (o_analyze_iv o); [|congruence]. destruct RE as [r' [RE R']]. rewrite R in R'. injection R' as <-.
  assert (L : length (u_voltage p) = length (u_current p)) by (destruct (iv_grid argsort savgol _ _ _ _ _ IV) as [_ LL]; now symmetry).
  assert (RU : range_used (rec_options o) lo hi) by (left; cbn [rec_options r_fit_range]; now rewrite FR).
  destruct (recover_middle J idc0 ikk0 _ _ _ (rec_options o) r lo hi L RU RE) as [al [mid [A1 [A2 [A3 [A4 A5]]]]]].
  exists al, mid. cbn [rec_options r_alpha_max r_num_b r_remb r_xemb] in *. split; [assumption|]. split; [assumption|]. split; [assumption|]. split; [assumption|]. split; [assumption|]. intros NZ CO.
  destruct (o_zemb o) as [z|] eqn:Z.
  - intros CZ. destruct (recover_forced J idc0 ikk0 _ _ _ (rec_options o) r lo hi z L RU Z RE) as [al' [B1 B2]]. assert (Q : Ok al' = Ok al) by (etransitivity; [symmetry; exact B1|exact A1]). injection Q as ->. exact (B2 NZ CO CZ).
  - destruct (recover_best J idc0 ikk0 _ _ _ (rec_options o) r lo hi L RU Z RE) as [al' [B1 B2]]. assert (Q : Ok al' = Ok al) by (etransitivity; [symmetry; exact B1|exact A1]). injection Q as ->. exact (B2 NZ CO).
Qed.
End Oracles.
