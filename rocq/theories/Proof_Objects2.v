(** The response function of DCData, the default parameters and an example. *)
From Coq Require Import List ZArith Lia Bool Arith Reals Lra String Permutation Sorting.
From Coquelicot Require Import Complex.
From Verif Require Import Base Model_QtCurrent Float NumPy Spec_CleanData Proof_CleanData Model_CleanData Model_MathFn Spec_RespFn Model_RespFn Spec_IVData Model_IVData Spec_IFData Model_IFData
  Model_ExpData Model_Objects Spec_Objects Proof_Circuit Proof_IVModels Proof_NumPy Proof_IVLoad Proof_IVData Proof_IVCurve Proof_IVCases Proof_IFLoad
  Spec_RespParams Proof_RespFn Proof_RespFn2 Proof_RespFn3 Proof_RespFn4 Proof_Objects.
From Verif Require Proof_Slope.
Import ListNotations.
Open Scope R_scope.
Local Notation length := List.length.
Local Notation Forall := List.Forall.

(** ** The response function *)
Lemma first_such (P : nat -> Prop) (D : forall k, {P k} + {~ P k}) j : P j -> exists f, (f <= j)%nat /\ P f /\ forall k, (k < f)%nat -> ~ P k.
Proof.
  induction j as [j IH] using lt_wf_ind. intros Pj. assert (K : (exists k, (k < j)%nat /\ P k) \/ (forall k, (k < j)%nat -> ~ P k)).
  { clear IH Pj. induction j as [|j IH]; [right; intros; lia|]. destruct IH as [[k [A B]]|H]; [left; exists k; split; [lia|assumption]|]. destruct (D j) as [Y|N]; [left; exists j; split; [lia|assumption]|].
    right. intros k K. destruct (Nat.eq_dec k j) as [->|]; [assumption|]. apply H. lia. }
  destruct K as [[k [A B]]|H]; [|exists j; repeat split; auto]. destruct (IH k A B) as [f [F1 [F2 F3]]]. exists f. repeat split; auto. lia.
Qed.
Lemma window_exists v lo hi a b : increasing v -> (a <= b < length v)%nat -> lo < nth a v 0 -> nth b v 0 < hi ->
  exists f l, (f <= a)%nat /\ (b <= l < length v)%nat /\ forall i, (i < length v)%nat -> (lo < nth i v 0 < hi <-> (f <= i <= l)%nat).
Proof.
  intros I AB A B. assert (LE : forall i j, (i <= j)%nat -> (j < length v)%nat -> nth i v 0 <= nth j v 0). { intros i j IJ J. destruct (Nat.eq_dec i j) as [->|]; [lra|]. left. apply I; lia. }
  destruct (first_such (fun k => lo < nth k v 0) (fun k => Rlt_dec _ _) a A) as [f [F1 [F2 F3]]].
  destruct (first_such (fun k => nth (length v - 1 - k) v 0 < hi) (fun k => Rlt_dec _ _) (length v - 1 - b)%nat) as [g [G1 [G2 G3]]]; [replace (length v - 1 - (length v - 1 - b))%nat with b by lia; assumption|].
  exists f, (length v - 1 - g)%nat. split; [assumption|]. split; [lia|]. intros i Hi. split.
  - intros [L1 L2]. split.
    + destruct (le_lt_dec f i) as [|N]; [assumption|]. exfalso. now apply (F3 i N).
    + destruct (le_lt_dec i (length v - 1 - g)) as [|N]; [assumption|]. exfalso. apply (G3 (length v - 1 - i)%nat); [lia|]. replace (length v - 1 - (length v - 1 - i))%nat with i by lia. assumption.
  - intros [L1 L2]. split; [pose proof (LE f i L1 Hi); lra|]. pose proof (LE i (length v - 1 - g)%nat L2 ltac:(lia)). lra.
Qed.
Section Oracles.
Variable argsort : list fl -> list nat.
Variable minimize : (R * R -> R) -> R * R -> R * R.
Variable savgol : list R -> Z -> Z -> list R.
Variable spline dspline : list R -> list R -> Z -> R -> R.
Local Notation DC := (dc_data argsort minimize savgol spline dspline).
Lemma from_iv_nodes v c vmax p r k j : v_smear p = None -> respfn_from_iv spline dspline v c vmax p = Ok r -> increasing v -> length c = length v -> vmax <= 50 ->
  (k < length (rf_voltage r))%nat -> (S j < length v)%nat -> 0 < nth j v 0 -> nth (S j) v 0 < vmax ->
  let t := nth k (rf_voltage r) 0 in
  (nth j v 0 <= t <= nth (S j) v 0 -> nth k (rf_current r) 0 = chord (nth j v 0) (nth j c 0) (nth (S j) v 0) (nth (S j) c 0) t) /\
  (nth j v 0 <= - t <= nth (S j) v 0 -> nth k (rf_current r) 0 = - chord (nth j v 0) (nth j c 0) (nth (S j) v 0) (nth (S j) c 0) (- t)).
Proof.
  intros NS H I LC VM K J PJ BJ t. unfold respfn_from_iv in H. destruct (window_exists v 0 vmax j (S j) I ltac:(lia) PJ BJ) as [f [l [F [L W]]]].
  destruct (resampled v c vmax f l I LC VM ltac:(lia) W) as [i [E [LI S]]]. rewrite E in H. cbn [bind] in H. destruct (init_inv spline dspline _ _ _ _ H) as [V1 [V0 [_ [EV [EC _]]]]]. specialize (EC NS).
  assert (LR : length (rf_voltage r) = (2 * length VINIT - 1)%nat) by (rewrite EV; apply reflect_length; assumption). rewrite LR in K. unfold t. rewrite EV, EC.
  destruct (le_lt_dec (length VINIT - 1) k) as [HI|LO].
  - rewrite (reflect_high VINIT k), (reflect_high i k) by lia. rewrite LI. set (k' := (k - (length VINIT - 1))%nat). destruct (S k' ltac:(unfold k'; lia)) as [_ [S2 _]].
    assert (0 <= nth k' VINIT 0). { rewrite vinit_nth by (rewrite <- vinit_length; unfold k'; lia). pose proof (pos_INR k'). lra. }
    split; intros T; [apply S2; [lia|assumption]|exfalso; lra].
  - rewrite (reflect_left VINIT k), (reflect_left i k) by lia. rewrite LI. set (k' := (length VINIT - 1 - k)%nat). destruct (S k' ltac:(unfold k'; lia)) as [_ [S2 _]].
    assert (0 <= nth k' VINIT 0). { rewrite vinit_nth by (rewrite <- vinit_length; unfold k'; lia). pose proof (pos_INR k'). lra. }
    split; intros T; [exfalso; lra|]. rewrite Ropp_involutive in *. f_equal. apply S2; [lia|assumption].
Qed.
Lemma dc_grid_rising m f o d : DC m f o = Ok d -> 0 < dc_vgap (d_dc d) -> 0 < o_vmax o -> (2 <= o_npts o)%nat -> increasing (d_voltage d) /\ length (d_current d) = length (d_voltage d).
Proof.
  intros D G M N. destruct (dc_inv argsort minimize savgol spline dspline _ _ _ _ D) as [A _]. destruct (dciv_vgap argsort minimize savgol _ _ _ _ _ A) as [_ [_ [V L]]]. split; [|assumption]. rewrite V. cbn [iv_options p_vmax p_npts].
  intros i j IJ J. rewrite map_length, linspace_length in J. rewrite !grid_nth by lia. apply Rmult_lt_compat_r; [now apply Rinv_0_lt_compat|]. apply Rplus_lt_compat_l. apply Rmult_lt_compat_r; [|now apply lt_INR].
  apply Rdiv_lt_0_compat; [lra|]. apply lt_0_INR. lia.
Qed.
Lemma response_nodes m f o d k j : DC m f o = Ok d -> 0 < dc_vgap (d_dc d) -> 0 < o_vmax o -> (2 <= o_npts o)%nat ->
  let v := d_voltage d in let c := d_current d in let t := nth k (rf_voltage (d_resp d)) 0 in
  (k < length (rf_voltage (d_resp d)))%nat -> (S j < length v)%nat -> 0 < nth j v 0 -> nth (S j) v 0 < 18 / 10 ->
  (nth j v 0 <= t <= nth (S j) v 0 -> nth k (rf_current (d_resp d)) 0 = chord (nth j v 0) (nth j c 0) (nth (S j) v 0) (nth (S j) c 0) t) /\
  (nth j v 0 <= - t <= nth (S j) v 0 -> nth k (rf_current (d_resp d)) 0 = - chord (nth j v 0) (nth j c 0) (nth (S j) v 0) (nth (S j) c 0) (- t)).
Proof.
  intros D G M N v c t K J P B. destruct (dc_grid_rising _ _ _ _ D G M N) as [I L]. destruct (dc_inv argsort minimize savgol spline dspline _ _ _ _ D) as [_ [_ [R _]]].
  apply (from_iv_nodes v c vlimit (resp_options None) (d_resp d) k j); try assumption; [reflexivity|unfold vlimit; lra].
Qed.
Lemma dc_accepts m o V I dc s : dciv_curve minimize savgol argsort m (iv_options o) = Ok (V, I, dc) -> dc_summary dc V I (o_area o) (o_vleak o) = Ok s -> increasing V ->
  (exists i, (i < length V)%nat /\ 0 < nth i V 0 < 18 / 10) -> match o_v_smear o with None => True | Some w => 1 / 600 <= w <= 1 end -> exists d, DC m None o = Ok d.
Proof.
  intros A B IV [i [I1 I2]] SM. pose proof (dciv_vgap argsort minimize savgol _ _ _ _ _ A) as [_ [_ [_ L]]].
  destruct (window_exists V 0 (18 / 10) i i IV ltac:(lia) (proj1 I2) (proj2 I2)) as [f [l [F [LL W]]]]. destruct (resampled V I (18 / 10) f l IV L ltac:(lra) ltac:(lia) W) as [c [E [LC _]]].
  assert (U : usable_params (resp_options None) /\ usable_params (resp_options (o_v_smear o))).
  { unfold usable_params. cbn [resp_options kk_n spline_order check_error v_smear]. destruct (o_v_smear o); repeat split; try lia; try lra. }
  unfold dc_data. rewrite A. cbn [bind]. rewrite B. cbn [bind]. unfold respfn_from_iv. change vlimit with (18 / 10). rewrite E. cbn [bind].
  destruct (vinit_accepts spline dspline c (resp_options None) (proj1 U) LC) as [r ->]. cbn [bind]. destruct (vinit_accepts spline dspline c (resp_options (o_v_smear o)) (proj2 U) LC) as [r' ->]. cbn [bind]. eexists. reflexivity.
Qed.
End Oracles.

(** ** An example *)
Definition file : matrix := {| ncols := 2; rows := measured [195 / 100; 205 / 100; 36 / 10; 42 / 10; 48 / 10] [195 / 1000; 205 / 1000; 36 / 100; 42 / 100; 60 / 100] |}.
Definition file_v : list R := map (fun a => a - 0) (map (fun a => a * 1) (map (fun a => a * / 10 ^ 3) [195 / 100; 205 / 100; 36 / 10; 42 / 10; 48 / 10])).
Definition file_i : list R := map (fun a => a - 0) (map (fun a => a * 1) (map (fun a => a * / 10 ^ 3) [195 / 1000; 205 / 1000; 36 / 100; 42 / 100; 60 / 100])).
Ltac within := unfold samples_within; cbn [file_v file_i map List.combine filter fst];
  repeat match goal with |- context [Rlt_dec ?a ?b] => destruct (Rlt_dec a b); try (exfalso; lra) end.
Lemma file_subgap : find_subgap_resistance file_v file_i (2 / 10 ^ 3) = Ok (/ (1 / 10)).
Proof.
  assert (W : samples_within (2 / 10 ^ 3 - 1 / 10 ^ 4) (2 / 10 ^ 3 + 1 / 10 ^ 4) file_v file_i = List.combine (firstn 2 file_v) (firstn 2 file_i)) by (within; reflexivity).
  apply subgap_line with 0; rewrite ?W; [reflexivity| | |lra].
  - eexists. eexists. split; [left; reflexivity|]. split; [right; left; reflexivity|]. cbn. lra.
  - intros q Q. cbn in Q. destruct Q as [<-|[<-|[]]]; cbn; lra.
Qed.
Lemma file_documented : find_normal_resistance file_v file_i (35 / 10 ^ 4, 45 / 10 ^ 4) = Ok (/ (1 / 10), - 0 / (1 / 10)).
Proof.
  assert (W : samples_within (35 / 10 ^ 4) (45 / 10 ^ 4) file_v file_i = List.combine (firstn 2 (skipn 2 file_v)) (firstn 2 (skipn 2 file_i))) by (within; reflexivity).
  apply normal_line; rewrite ?W; [reflexivity| | |lra].
  - eexists. eexists. split; [left; reflexivity|]. split; [right; left; reflexivity|]. cbn. lra.
  - intros q Q. cbn in Q. destruct Q as [<-|[<-|[]]]; cbn; lra.
Qed.
Lemma file_default : exists b, find_normal_resistance file_v file_i (35 / 10 ^ 4, 5 * 10 ^ 3) = Ok (5, b).
Proof.
  assert (W : samples_within (35 / 10 ^ 4) (5 * 10 ^ 3) file_v file_i = List.combine (skipn 2 file_v) (skipn 2 file_i)) by (within; reflexivity).
  unfold find_normal_resistance. cbn [fst snd]. rewrite window_eq by reflexivity. cbn [bind fst snd]. rewrite W. rewrite polyfit_eq by discriminate. cbv zeta.
  unfold Sxx, Sx, Sxy, Sy, rsum. cbn [file_v file_i map skipn List.combine fst snd List.length fold_right INR].
  match goal with |- context [Reqb ?d 0] => destruct (Reqb_spec d 0) as [K|_]; [exfalso; lra|] end. cbn [bind fst snd].
  match goal with |- context [quot 1 ?s] => replace s with (2 / 10) by field end. rewrite !quot_eq by lra. cbn [bind]. eexists. do 2 f_equal. field.
Qed.
Section Case.
Variable minimize : (R * R -> R) -> R * R -> R * R.
Variable savgol : list R -> Z -> Z -> list R.
Variable J : nat -> R -> R.
Variable spline dspline : list R -> list R -> Z -> R -> R.
Local Notation DC := (dc_data insertion_argsort minimize savgol spline dspline).
Local Notation PUMPED := (pumped_data insertion_argsort savgol J).
Lemma file_loaded p : p_v_fmt p = "mV"%string -> p_i_fmt p = "mA"%string -> p_v_multiplier p = 1 -> p_i_multiplier p = 1 ->
  loaded insertion_argsort file p = Ok (map (fun a => a * 1) (map (fun a => a * / 10 ^ 3) [195 / 100; 205 / 100; 36 / 10; 42 / 10; 48 / 10]), map (fun a => a * 1) (map (fun a => a * / 10 ^ 3) [195 / 1000; 205 / 1000; 36 / 100; 42 / 100; 60 / 100])).
Proof.
  intros E1 E2 E3 E4. unfold loaded, file. rewrite (load_rising insertion_argsort (p_v_fmt p) (p_i_fmt p) (/ 10 ^ 3) (/ 10 ^ 3)); rewrite ?E1, ?E2; try reflexivity; [|exact insertion_sorts|cbn; lia|].
  - cbn [bind]. rewrite <- (map_map (fun a => a * / 10 ^ 3) FV), <- (map_map (fun a => a * / 10 ^ 3) FV [195 / 1000; 205 / 1000; 36 / 100; 42 / 100; 60 / 100]). rewrite !reals_map. rewrite E3, E4. reflexivity.
  - cbn [List.length]. intros j k IJ K. cases_nat j; cases_nat k; try lia; cbn; lra.
Qed.
Lemma file_case o rn b g : o_v_fmt o = "mV"%string -> o_i_fmt o = "mA"%string -> o_v_multiplier o = 1 -> o_i_multiplier o = 1 -> o_voffset o = None -> o_ioffset o = None ->
  0 <= - fst (limits (o_voffset_range o)) -> o_filter_data o = false -> o_rseries o = None -> o_vgap o = Some g -> 0 < g -> o_vrsg o = 2 / 10 ^ 3 -> o_area o = 15 / 10 -> o_v_smear o = Some (20 / 1000) ->
  0 < o_vmax o -> (2 <= o_npts o)%nat -> (exists k, (k < o_npts o)%nat /\ 0 < - o_vmax o + INR k * (2 * o_vmax o / INR (o_npts o - 1)) < 18 / 10 * g) ->
  find_normal_resistance file_v file_i (o_vrn o) = Ok (rn, b) -> rn <> 0 -> exists d, DC file None o = Ok d /\ dc_rn (d_dc d) = rn /\ dc_vgap (d_dc d) = g /\ dc_igap (d_dc d) = g / rn /\ dc_offset (d_dc d) = (0, 0) /\ dc_fgap (d_dc d) = sc_e * g / sc_h.
Proof.
  intros E1 E2 E3 E4 E5 E6 E7 E8 E9 E10 G E11 E12 E13 VM NP [k [K1 K2]] EN RN.
  assert (EO : correct_offset minimize (map (fun a => a * 1) (map (fun a => a * / 10 ^ 3) [195 / 100; 205 / 100; 36 / 10; 42 / 10; 48 / 10])) (map (fun a => a * 1) (map (fun a => a * / 10 ^ 3) [195 / 1000; 205 / 1000; 36 / 100; 42 / 100; 60 / 100])) None None (o_voffset_range o) = Ok (file_v, file_i, (0, 0))).
  { rewrite unipolar; [reflexivity|discriminate|]. intros [[a [A B]] _]. cbn in A. destruct A as [<-|[<-|[<-|[<-|[<-|[]]]]]]; lra. }
  assert (D : exists V I d, dciv_curve minimize savgol insertion_argsort file (iv_options o) = Ok (V, I, d) /\ dc_rn d = rn /\ dc_vgap d = g /\ dc_igap d = g / rn /\ dc_offset d = (0, 0) /\ dc_fgap d = sc_e * g / sc_h /\ dc_rsg d = / (1 / 10)).
  { unfold dciv_curve. rewrite file_loaded by assumption. cbn [bind iv_options p_voffset p_ioffset p_voffset_range p_vgap p_vrn p_vrsg p_vmax p_npts p_rseries]. rewrite E5, E6, EO. cbn [bind]. rewrite processed_plain by assumption. cbn [bind]. rewrite E10. cbn [bind]. rewrite EN. cbn [bind]. rewrite E11, file_subgap. cbn [bind].
    rewrite quot_eq by assumption. cbn [bind]. destruct (Reqb_spec g 0); [lra|]. cbn [negb guard bind]. unfold np_interp. cbn [List.length map file_v file_i Nat.eqb negb guard bind]. eexists. eexists. eexists. split; [reflexivity|]. cbn. auto 10. }
  destruct D as [V [I [dc [D [D1 [D2 [D3 [D4 [D5 D6]]]]]]]]]. destruct (dciv_vgap insertion_argsort minimize savgol _ _ _ _ _ D) as [_ [_ [EV LI]]]. cbn [iv_options p_vmax p_npts] in EV. rewrite D2 in EV.
  assert (LV : length V = o_npts o) by (rewrite EV, map_length; apply linspace_length).
  assert (IV : increasing V).
  { intros i j IJ Hj. rewrite LV in Hj. rewrite EV. rewrite !grid_nth by lia. apply Rmult_lt_compat_r; [now apply Rinv_0_lt_compat|]. apply Rplus_lt_compat_l. apply Rmult_lt_compat_r; [|now apply lt_INR]. apply Rdiv_lt_0_compat; [lra|]. apply lt_0_INR. lia. }
  assert (SU : exists s, dc_summary dc V I (o_area o) (o_vleak o) = Ok s).
  { unfold dc_summary. rewrite D1, D2, D6, E12. rewrite quot_eq by assumption. cbn [bind]. rewrite quot_eq by (repeat apply Rmult_integral_contrapositive_currified; lra). cbn [bind]. rewrite quot_eq by lra. cbn [bind]. unfold np_interp. rewrite LI, Nat.eqb_refl, LV. destruct (Nat.eqb_spec (o_npts o) 0); [lia|]. cbn [negb guard bind]. eexists. reflexivity. }
  destruct SU as [s SU]. destruct (dc_accepts insertion_argsort minimize savgol spline dspline file o V I dc s D SU IV) as [d DD].
  - exists k. split; [lia|]. rewrite EV, grid_nth by assumption. split; [apply Rdiv_lt_0_compat; lra|]. apply Rmult_lt_reg_r with g; [assumption|]. unfold Rdiv at 1. rewrite Rmult_assoc, Rinv_l by lra. lra.
  - rewrite E13. lra.
  - exists d. split; [assumption|]. destruct (dc_inv insertion_argsort minimize savgol spline dspline _ _ _ _ DD) as [Q _]. rewrite D in Q. injection Q as _ _ Q. rewrite <- Q. auto 10.
Qed.
Lemma npts_default : o_npts PARAMS = Z.to_nat 6001.
Proof. reflexivity. Qed.
Lemma grid_default : (2 <= Z.to_nat 6001)%nat /\ exists k, (k < Z.to_nat 6001)%nat /\ 0 < - (6 / 10 ^ 3) + INR k * (2 * (6 / 10 ^ 3) / INR (Z.to_nat 6001 - 1)) < 18 / 10 * (28 / 10 ^ 4).
Proof.
  split; [lia|]. exists (Z.to_nat 4000). split; [lia|]. replace (INR (Z.to_nat 6001 - 1)) with 6000 by (rewrite INR_IZR_INZ, Nat2Z.inj_sub by lia; rewrite Z2Nat.id by lia; reflexivity).
  replace (INR (Z.to_nat 4000)) with 4000 by (rewrite INR_IZR_INZ, Z2Nat.id by lia; reflexivity). lra.
Qed.
Lemma defaults_differ : exists d d', DC file None (unfiltered PARAMS (28 / 10 ^ 4)) = Ok d /\ DC file None (unfiltered documented_defaults (28 / 10 ^ 4)) = Ok d' /\ dc_rn (d_dc d) = 5 /\ dc_rn (d_dc d') = 10.
Proof.
  destruct file_default as [b FD]. destruct (file_case (unfiltered PARAMS (28 / 10 ^ 4)) 5 b (28 / 10 ^ 4)) as [d [D [R _]]]; try reflexivity; try lra; try apply grid_default; try exact FD; try (cbn; lra).
  destruct (file_case (unfiltered documented_defaults (28 / 10 ^ 4)) (/ (1 / 10)) (- 0 / (1 / 10)) (28 / 10 ^ 4)) as [d' [D' [R' _]]]; try reflexivity; try lra; try apply grid_default; try exact file_documented; try (cbn; lra).
  exists d, d'. split; [assumption|]. split; [assumption|]. split; [assumption|]. rewrite R'. lra.
Qed.
Lemma file_pumped d g rn o f : dc_vgap (d_dc d) = g -> dc_igap (d_dc d) = g / rn -> dc_offset (d_dc d) = (0, 0) -> dc_fgap (d_dc d) = sc_e * g / sc_h -> 0 < g -> rn <> 0 ->
  o_freq o = Some f -> o_v_fmt o = "mV"%string -> o_i_fmt o = "mA"%string -> o_v_multiplier o = 1 -> o_i_multiplier o = 1 -> o_voffset o = None -> o_filter_data o = false -> o_rseries o = None ->
  o_analyze_iv o = false -> (32 <= o_npts o)%nat -> exists p, PUMPED file d None None o = Ok p.
Proof.
  intros D2 D3 D4 D5 G RN F E1 E2 E3 E4 E5 E8 E9 EA NP. unfold pumped_data. rewrite F, D5. cbn [bind].
  assert (0 < sc_e * g / sc_h). { unfold sc_e, sc_h. apply Rdiv_lt_0_compat; [apply Rmult_lt_0_compat; lra|lra]. } rewrite quot_eq by lra. cbn [bind].
  assert (GR : g / rn <> 0) by (apply Rmult_integral_contrapositive_currified; [lra|now apply Rinv_neq_0_compat]).
  assert (IV : exists V I, iv_curve savgol insertion_argsort file (d_dc d) (iv_options o) = Ok (V, I)).
  { unfold iv_curve. rewrite file_loaded by assumption. cbn [bind iv_options p_voffset]. rewrite E5, D4. rewrite processed_plain by assumption. cbn [bind]. rewrite D2, D3. destruct (Reqb_spec g 0); [lra|]. destruct (Reqb_spec (g / rn) 0); [contradiction|]. cbn [negb andb guard bind].
    unfold np_interp_zero, np_interp. cbn [List.length map Nat.eqb negb guard bind]. eexists. eexists. reflexivity. }
  destruct IV as [V [I IV]]. rewrite IV. cbn [bind]. destruct (iv_grid insertion_argsort savgol _ _ _ _ _ IV) as [EV LI].
  assert (LV : length V = o_npts o) by (rewrite EV, map_length; apply linspace_length).
  destruct (Proof_Slope.span_spec I V (eq_sym LI) 10 ltac:(lia) true ltac:(rewrite LI, LV; lia)) as [r [ER _]]. change (2 * Z.of_nat 10 + 1)%Z with 21%Z in ER. rewrite ER. cbn [bind]. rewrite EA. cbn [bind]. eexists. reflexivity.
Qed.
(** The defaults with some keyword arguments. *)
Definition quick : options := {|
  o_v_fmt := "mV"%string; o_i_fmt := "mA"%string; o_vmax := 6 / 10 ^ 3; o_npts := Z.to_nat 6001;
  o_ioffset := None; o_voffset := None; o_voffset_range := Limits (- (1 / 10 ^ 3)) (1 / 10 ^ 3);
  o_rseries := None; o_i_multiplier := 1; o_v_multiplier := 1; o_ifdata_npts := Z.to_nat 3000;
  o_filter_data := false; o_filter_theta := 785 / 1000; o_filter_nwind := 21%Z; o_filter_npoly := 3%Z;
  o_ifdata_sigma := Some (1 / 10 ^ 5); o_analyze_iv := false; o_analyze_if := true; o_area := 15 / 10;
  o_freq := Some 230; o_vgap := Some (28 / 10 ^ 4); o_vrn := (35 / 10 ^ 4, 45 / 10 ^ 4); o_vrsg := 2 / 10 ^ 3;
  o_vleak := 2 / 10 ^ 3; o_vshot := None; o_fit_range := Some (25 / 100, 8 / 10); o_remb_range := (0, 1);
  o_xemb_range := (-1, 1); o_zemb := None; o_alpha_max := 15 / 10; o_num_b := 20%nat; o_t_cold := 78;
  o_t_hot := 293; o_vbest := None; o_best_pt := "Max Gain"%string; o_v_smear := Some (20 / 1000);
  o_cut_low := None; o_cut_high := None |}.
Lemma quick_case : exists d p, DC file None quick = Ok d /\ PUMPED file d None None quick = Ok p /\ 0 < dc_vgap (d_dc d).
Proof.
  destruct (file_case quick (/ (1 / 10)) (- 0 / (1 / 10)) (28 / 10 ^ 4)) as [d [D [R [G [IG [OF FG]]]]]]; try reflexivity; try lra; try apply grid_default; try exact file_documented; try (cbn; lra).
  exists d. destruct (file_pumped d (28 / 10 ^ 4) (/ (1 / 10)) quick 230) as [p P]; try assumption; try reflexivity; try lra.
  - change (o_npts quick) with (Z.to_nat 6001). lia.
  - exists p. split; [assumption|]. split; [assumption|]. rewrite G. lra.
Qed.
End Case.
