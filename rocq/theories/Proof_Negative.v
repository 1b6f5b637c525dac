(** Measured currents at negative voltages are not used by the response function. *)
From Coq Require Import List ZArith Lia Bool Arith Reals Lra String Permutation Sorting.
From Coquelicot Require Import Complex.
From Verif Require Import Base Model_QtCurrent Float NumPy Spec_CleanData Proof_CleanData Model_CleanData Model_MathFn Spec_RespFn Model_RespFn Spec_IVData Model_IVData Spec_IFData Model_IFData
  Model_ExpData Model_Objects Spec_Objects Proof_Circuit Proof_IVModels Proof_NumPy Proof_IVLoad Proof_IVData Proof_IVCurve Proof_IVCases Proof_IFLoad
  Spec_RespParams Proof_RespFn Proof_RespFn2 Proof_RespFn3 Proof_RespFn4 Proof_Objects Proof_Objects2.
Import ListNotations.
Open Scope R_scope.
Local Notation length := List.length.

Definition lopsided : matrix := {| ncols := 2; rows := measured [- (1 / 2); 195 / 100; 205 / 100; 36 / 10; 42 / 10] [195 / 1000; 195 / 1000; 205 / 1000; 36 / 100; 42 / 100] |}.
Definition lop_v : list R := map (fun a => a - 0) (map (fun a => a * 1) (map (fun a => a * / 10 ^ 3) [- (1 / 2); 195 / 100; 205 / 100; 36 / 10; 42 / 10])).
Definition lop_i : list R := map (fun a => a - 0) (map (fun a => a * 1) (map (fun a => a * / 10 ^ 3) [195 / 1000; 195 / 1000; 205 / 1000; 36 / 100; 42 / 100])).
Ltac within2 := unfold samples_within; cbn [lop_v lop_i map List.combine filter fst];
  repeat match goal with |- context [Rlt_dec ?a ?b] => destruct (Rlt_dec a b); try (exfalso; lra) end.
Lemma lop_subgap : find_subgap_resistance lop_v lop_i (2 / 10 ^ 3) = Ok (/ (1 / 10)).
Proof.
  assert (W : samples_within (2 / 10 ^ 3 - 1 / 10 ^ 4) (2 / 10 ^ 3 + 1 / 10 ^ 4) lop_v lop_i = List.combine (firstn 2 (skipn 1 lop_v)) (firstn 2 (skipn 1 lop_i))) by (within2; reflexivity).
  apply subgap_line with 0; rewrite ?W; [reflexivity| | |lra].
  - eexists. eexists. split; [left; reflexivity|]. split; [right; left; reflexivity|]. cbn. lra.
  - intros q Q. cbn in Q. destruct Q as [<-|[<-|[]]]; cbn; lra.
Qed.
Lemma lop_normal : find_normal_resistance lop_v lop_i (35 / 10 ^ 4, 45 / 10 ^ 4) = Ok (/ (1 / 10), - 0 / (1 / 10)).
Proof.
  assert (W : samples_within (35 / 10 ^ 4) (45 / 10 ^ 4) lop_v lop_i = List.combine (firstn 2 (skipn 3 lop_v)) (firstn 2 (skipn 3 lop_i))) by (within2; reflexivity).
  apply normal_line; rewrite ?W; [reflexivity| | |lra].
  - eexists. eexists. split; [left; reflexivity|]. split; [right; left; reflexivity|]. cbn. lra.
  - intros q Q. cbn in Q. destruct Q as [<-|[<-|[]]]; cbn; lra.
Qed.
Lemma inrz z : (0 <= z)%Z -> INR (Z.to_nat z) = IZR z.
Proof. intros. now rewrite INR_IZR_INZ, Z2Nat.id. Qed.
Section Case.
Variable minimize : (R * R -> R) -> R * R -> R * R.
Variable savgol : list R -> Z -> Z -> list R.
Variable spline dspline : list R -> list R -> Z -> R -> R.
Local Notation DC := (dc_data insertion_argsort minimize savgol spline dspline).
Lemma lop_loaded p : p_v_fmt p = "mV"%string -> p_i_fmt p = "mA"%string -> p_v_multiplier p = 1 -> p_i_multiplier p = 1 ->
  loaded insertion_argsort lopsided p = Ok (map (fun a => a * 1) (map (fun a => a * / 10 ^ 3) [- (1 / 2); 195 / 100; 205 / 100; 36 / 10; 42 / 10]), map (fun a => a * 1) (map (fun a => a * / 10 ^ 3) [195 / 1000; 195 / 1000; 205 / 1000; 36 / 100; 42 / 100])).
Proof.
  intros E1 E2 E3 E4. unfold loaded, lopsided. rewrite (load_rising insertion_argsort (p_v_fmt p) (p_i_fmt p) (/ 10 ^ 3) (/ 10 ^ 3)); rewrite ?E1, ?E2; try reflexivity; [|exact insertion_sorts|cbn; lia|].
  - cbn [bind]. rewrite <- (map_map (fun a => a * / 10 ^ 3) FV), <- (map_map (fun a => a * / 10 ^ 3) FV [195 / 1000; 195 / 1000; 205 / 1000; 36 / 100; 42 / 100]). rewrite !reals_map. rewrite E3, E4. reflexivity.
  - cbn [List.length]. intros j k IJ K. cases_nat j; cases_nat k; try lia; cbn; lra.
Qed.
Lemma flat_below t : - (1 / 2) / 10 ^ 3 / (28 / 10 ^ 4) <= t <= (195 / 100) / 10 ^ 3 / (28 / 10 ^ 4) ->
  np_interp1 (map (fun a => a / (28 / 10 ^ 4)) lop_v) (map (fun a => a / (28 / 10 ^ 4 / / (1 / 10))) lop_i) t = 39 / 56.
Proof.
  intros T. rewrite (interp_closed _ _ _ 0).
  - unfold lop_v, lop_i. cbn [map nth]. unfold chord. field.
  - unfold lop_v. intros i j IJ H. cbn [map List.length] in *. cases_nat i; cases_nat j; try lia; cbn; lra.
  - reflexivity.
  - cbn. lia.
  - unfold lop_v. cbn [map nth]. lra.
Qed.
Lemma lopsided_case : exists d k j, DC lopsided None quick = Ok d /\ (k < length (rf_voltage (d_resp d)))%nat /\ (j < length (d_voltage d))%nat /\
  nth k (rf_voltage (d_resp d)) 0 = - (1 / 20) /\ nth j (d_voltage d) 0 = - (1 / 20) /\ nth j (d_current d) 0 = 39 / 56 /\ nth k (rf_current (d_resp d)) 0 = - (39 / 56).
Proof.
  assert (EO : correct_offset minimize (map (fun a => a * 1) (map (fun a => a * / 10 ^ 3) [- (1 / 2); 195 / 100; 205 / 100; 36 / 10; 42 / 10])) (map (fun a => a * 1) (map (fun a => a * / 10 ^ 3) [195 / 1000; 195 / 1000; 205 / 1000; 36 / 100; 42 / 100])) None None (o_voffset_range quick) = Ok (lop_v, lop_i, (0, 0))).
  { rewrite unipolar; [reflexivity|discriminate|]. intros [[a [A B]] _]. cbn in A, B. destruct A as [<-|[<-|[<-|[<-|[<-|[]]]]]]; lra. }
  set (g := 28 / 10 ^ 4). set (rn := / (1 / 10)).
  assert (G : 0 < g) by (unfold g; lra). assert (RN : rn <> 0) by (unfold rn; apply Rinv_neq_0_compat; lra).
  assert (D : exists V I d, dciv_curve minimize savgol insertion_argsort lopsided (iv_options quick) = Ok (V, I, d) /\ dc_rn d = rn /\ dc_vgap d = g /\ dc_rsg d = / (1 / 10) /\
    I = map (np_interp1 (map (fun a => a / g) lop_v) (map (fun a => a / (g / rn)) lop_i)) V).
  { unfold dciv_curve. rewrite lop_loaded by reflexivity. cbn [bind iv_options p_voffset p_ioffset p_voffset_range p_vgap p_vrn p_vrsg p_vmax p_npts p_rseries]. change (o_voffset quick) with (@None R). change (o_ioffset quick) with (@None R). rewrite EO. cbn [bind]. rewrite processed_plain by reflexivity. cbn [bind].
    change (o_vgap quick) with (Some g). cbn [bind]. change (o_vrn quick) with (35 / 10 ^ 4, 45 / 10 ^ 4). rewrite lop_normal. cbn [bind]. change (o_vrsg quick) with (2 / 10 ^ 3). rewrite lop_subgap. cbn [bind].
    fold rn. rewrite quot_eq by assumption. cbn [bind]. destruct (Reqb_spec g 0); [lra|]. cbn [negb guard bind]. unfold np_interp. rewrite !map_length. cbn [List.length map lop_v lop_i Nat.eqb negb guard bind].
    eexists. eexists. eexists. split; [reflexivity|]. cbn [dc_rn dc_vgap dc_rsg]. auto. }
  destruct D as [V [I [dc [D [D1 [D2 [D6 EI]]]]]]]. destruct (dciv_vgap insertion_argsort minimize savgol _ _ _ _ _ D) as [_ [_ [EV LI]]]. cbn [iv_options p_vmax p_npts] in EV. rewrite D2 in EV.
  destruct grid_default as [NP [k0 [K1 K2]]].
  assert (LV : length V = Z.to_nat 6001) by (rewrite EV, map_length; apply linspace_length).
  assert (NV : forall k, (k < Z.to_nat 6001)%nat -> nth k V 0 = (- (6 / 10 ^ 3) + INR k * (12 / 10 ^ 3 / 6000)) / g).
  { intros k K. rewrite EV. rewrite grid_nth by assumption. change (o_vmax quick) with (6 / 10 ^ 3). change (o_npts quick) with (Z.to_nat 6001). replace (INR (Z.to_nat 6001 - 1)) with 6000 by (rewrite INR_IZR_INZ, Nat2Z.inj_sub by lia; rewrite Z2Nat.id by lia; reflexivity). do 4 f_equal; lra. }
  assert (IV : increasing V).
  { intros i j IJ Hj. rewrite LV in Hj. rewrite !NV by lia. apply Rmult_lt_compat_r; [now apply Rinv_0_lt_compat|]. apply Rplus_lt_compat_l. apply Rmult_lt_compat_r; [lra|now apply lt_INR]. }
  assert (SU : exists s, dc_summary dc V I (o_area quick) (o_vleak quick) = Ok s).
  { unfold dc_summary. rewrite D1, D2, D6. change (o_area quick) with (15 / 10). rewrite quot_eq by assumption. cbn [bind]. rewrite quot_eq by (repeat apply Rmult_integral_contrapositive_currified; lra). cbn [bind]. rewrite quot_eq by lra. cbn [bind]. unfold np_interp. rewrite LI, Nat.eqb_refl, LV. destruct (Nat.eqb_spec (Z.to_nat 6001) 0); [lia|]. cbn [negb guard bind]. eexists. reflexivity. }
  destruct SU as [s SU]. destruct (dc_accepts insertion_argsort minimize savgol spline dspline lopsided quick V I dc s D SU IV) as [d DD].
  { exists (Z.to_nat 3100). split; [lia|]. rewrite NV by lia. rewrite (inrz 3100) by discriminate. unfold g. lra. }
  { cbn. lra. }
  destruct (dc_inv insertion_argsort minimize savgol spline dspline _ _ _ _ DD) as [Q _]. rewrite D in Q. injection Q as Q1 Q2 Q3.
  assert (GD : 0 < dc_vgap (d_dc d)) by (rewrite <- Q3, D2; assumption).
  assert (RV : rf_voltage (d_resp d) = reflect VINIT).
  { destruct (dc_inv insertion_argsort minimize savgol spline dspline _ _ _ _ DD) as [_ [_ [R _]]]. unfold respfn_from_iv in R. rewrite <- Q1, <- Q2 in R.
    destruct (import_iv V I vlimit) as [[v i]|e] eqn:E; [|discriminate]. cbn [bind] in R. destruct (init_inv spline dspline _ _ _ _ R) as [_ [_ [_ [X _]]]].
    assert (VV : v = VINIT). { (destruct (window_exists V 0 vlimit (Z.to_nat 3100) (Z.to_nat 3100) IV) as [f [l [F [L W]]]]; [lia| | |destruct (resampled V I vlimit f l IV LI ltac:(unfold vlimit; lra) ltac:(lia) W) as [i' [E' _]]; rewrite E in E'; now inversion E'];
      rewrite NV by lia; rewrite (inrz 3100) by discriminate; unfold g, vlimit; lra). } rewrite <- VV. exact X. }
  pose proof npts_Z as NZ.
  assert (KV : nth (npts - 1 - 10) (rf_voltage (d_resp d)) 0 = - (1 / 20)).
  { rewrite RV, reflect_left by (rewrite vinit_length; clear - NZ; lia). rewrite vinit_length. assert (E10 : (npts - 1 - (npts - 1 - 10))%nat = 10%nat) by (clear - NZ; lia). rewrite E10, vinit_nth by (clear - NZ; lia). rewrite INR_IZR_INZ. change (Z.of_nat 10) with 10%Z. lra. }
  assert (KL : (npts - 1 - 10 < length (rf_voltage (d_resp d)))%nat) by (rewrite RV, reflect_length; rewrite vinit_length; clear - NZ; lia).
  exists d, (npts - 1 - 10)%nat, (Z.to_nat 2930). split; [assumption|]. split; [assumption|]. rewrite <- Q1, <- Q2. split; [rewrite LV; lia|]. split; [assumption|].
  assert (A : nth (Z.to_nat 2930) V 0 = - (1 / 20)).
  { rewrite NV by lia. rewrite (inrz 2930) by discriminate. unfold g. lra. }
  assert (B : nth (Z.to_nat 3070) V 0 = 1 / 20).
  { rewrite NV by lia. rewrite (inrz 3070) by discriminate. unfold g. lra. }
  assert (NI : forall k, (k < Z.to_nat 6001)%nat -> - (1 / 2) / 10 ^ 3 / (28 / 10 ^ 4) <= nth k V 0 <= (195 / 100) / 10 ^ 3 / (28 / 10 ^ 4) -> nth k I 0 = 39 / 56).
  { intros k K T. rewrite EI. set (F := np_interp1 _ _). rewrite (nth_indep _ 0 (F 0)) by (rewrite map_length, LV; assumption). rewrite map_nth. now apply flat_below. }
  split; [assumption|]. split; [apply NI; [lia|rewrite A; lra]|].
  destruct (response_nodes insertion_argsort minimize savgol spline dspline lopsided None quick d (npts - 1 - 10) (Z.to_nat 3070) DD GD) as [_ H].
  - change (0 < 6 / 10 ^ 3). lra.
  - exact NP.
  - exact KL.
  - rewrite <- Q1, LV. lia.
  - rewrite <- Q1, B. lra.
  - rewrite <- Q1, NV by lia. rewrite S_INR, (inrz 3070) by discriminate. unfold g. lra.
  - rewrite <- Q1, <- Q2 in H. rewrite H.
    + rewrite KV, B. f_equal. unfold chord. rewrite (NI (Z.to_nat 3070)) by (lia || (rewrite B; lra)). lra.
    + rewrite KV, B. split; [lra|]. rewrite NV by lia. rewrite S_INR, (inrz 3070) by discriminate. unfold g. lra.
Qed.
End Case.
