(** Concrete cases for Properties_IVData.v. *)
From Coq Require Import List ZArith Lia Lra Bool Arith Reals Sorting Permutation String.
From Verif Require Import Base Model_QtCurrent Float NumPy Proof_NumPy Proof_Circuit Proof_IVModels Spec_CleanData Model_CleanData Proof_CleanData Model_MathFn Spec_RespFn Model_RespFn Proof_RespFn2 Spec_IVData Spec_Offset Model_IVData Proof_IVLoad Proof_IVData Proof_IVCurve.
Import ListNotations.
Open Scope R_scope.
Local Notation length := List.length.

Ltac cases_nat k := destruct k as [|[|[|[|[|k]]]]].
Lemma sweep_case : let v := [0; 1; 0; -1; 0] in sorting insertion_argsort /\ volts "mV" = Some (/ 10 ^ 3) /\ amperes "uA" = Some (/ 10 ^ 6) /\
  (1 < 3 < length v)%nat /\ rises v 0 1 /\ falls v 1 3 /\ rises v 3 (length v - 1) /\ nth (length v - 1) v 0 <= nth 1 v 0 /\ nth 3 v 0 < nth 0 v 0.
Proof.
  cbv zeta. split; [exact insertion_sorts|]. split; [reflexivity|]. split; [reflexivity|]. cbn [List.length]. split; [lia|].
  split; [|split; [|split; [|cbn; lra]]]; intros i j IJ J; cases_nat i; cases_nat j; try lia; cbn; lra.
Qed.
Lemma offset_case : [1; 2] <> [] /\ ~ bipolar (search_range (Width (1 / 2))) [1; 2] /\ bipolar (search_range (Width (1 / 2))) [-1; 0; 2] /\ samples_between (search_range (Width (1 / 2))) [-1; 0; 2] [-1; 0; 2] <> [].
Proof.
  split; [discriminate|]. cbn [search_range]. split; [|split].
  - intros [[a [A B]] _]. cbn in A, B. destruct A as [<-|[<-|[]]]; lra.
  - split; [exists (-1)|exists 2]; cbn; split; auto; lra.
  - intros H. apply (in_nil (a := (0, 0))). rewrite <- H. apply filter_In. split; [cbn; auto|]. cbn [fst snd]. destruct (Rle_dec (- (1 / 2)) 0); [|lra]. destruct (Rle_dec 0 (1 / 2)); [reflexivity|lra].
Qed.
Lemma within_case : samples_within 0 4 [1; 2; 5] [2; 4; 7] = [(1, 2); (2, 4)].
Proof.
  unfold samples_within. cbn [List.combine filter fst]. destruct (Rlt_dec 0 1); [|lra]. destruct (Rlt_dec 1 4); [|lra]. destruct (Rlt_dec 0 2); [|lra]. destruct (Rlt_dec 2 4); [|lra].
  destruct (Rlt_dec 0 5); [|lra]. destruct (Rlt_dec 5 4); [lra|]. reflexivity.
Qed.
Lemma fit_case : spread (samples_within 0 4 [1; 2; 5] [2; 4; 7]) /\ on_the_line (samples_within 0 4 [1; 2; 5] [2; 4; 7]) 2 0.
Proof.
  rewrite within_case. split; [exists (1, 2), (2, 4); cbn; repeat split; auto; lra|]. intros p [<-|[<-|[]]]; cbn; lra.
Qed.
Lemma filter_case : Spec_RespFn.increasing [-1; 1; 2] /\ amax (map (fun u => 2 * u + 1) [-1; 1; 2]) = Ok 5 /\ 0 < cos (1 / 10) + sin (1 / 10) * (2 * 2 / 5).
Proof.
  assert (I : Spec_RespFn.increasing [-1; 1; 2]) by (intros i j IJ J; cbn [List.length] in J; cases_nat i; cases_nat j; try lia; cbn; lra).
  split; [assumption|]. split.
  - rewrite amax_rising; [cbn; f_equal; lra|apply rising_map; [lra|assumption]|cbn; lia].
  - pose proof PI_RGT_0. pose proof PI2_1. unfold PI2 in *. assert (0 < cos (1 / 10)) by (apply cos_gt_0; lra). assert (0 < sin (1 / 10)) by (apply sin_gt_0; lra). nra.
Qed.
Definition case_params : ivparams := {|
  p_v_fmt := "uV"; p_i_fmt := "uA"; p_vmax := 4 / 10 ^ 6; p_npts := 3; p_voffset := None; p_ioffset := None; p_voffset_range := Width (1 / 10 ^ 3);
  p_rseries := None; p_i_multiplier := 1; p_v_multiplier := 1; p_filter_data := false; p_filter_theta := 0; p_filter_nwind := 21; p_filter_npoly := 3;
  p_vgap := Some (3 / 10 ^ 6); p_vrn := (0, 1); p_vrsg := 1 / 10 ^ 6 |}.
Lemma within_all lo hi v i : (forall a, In a v -> lo < a < hi) -> samples_within lo hi v i = List.combine v i.
Proof.
  intros H. unfold samples_within. revert i. induction v as [|a v IH]; intros [|b i]; try reflexivity. cbn [List.combine filter fst]. specialize (IH (fun x Hx => H x (or_intror Hx))). destruct (H a (or_introl eq_refl)).
  destruct (Rlt_dec lo a); [|lra]. destruct (Rlt_dec a hi); [|lra]. now rewrite IH.
Qed.
Lemma import_case : forall minimize savgol, exists p V I d, 0 < dc_vgap d /\ p_filter_data p = false /\ p_rseries p = None /\ 0 < p_v_multiplier p /\
  dciv_curve minimize savgol insertion_argsort {| ncols := 2; rows := measured [1; 2; 3; 4] [1 / 2; 1; 3 / 2; 2] |} p = Ok (V, I, d) /\
  exists r, iv_curve savgol insertion_argsort {| ncols := 2; rows := measured [1; 2; 3; 4] [1 / 2; 1; 3 / 2; 2] |} d p = Ok r.
Proof.
  intros minimize savgol. set (m := {| ncols := 2; rows := measured [1; 2; 3; 4] [1 / 2; 1; 3 / 2; 2] |}). set (p := case_params).
  set (v := map (fun a => a - 0) (map (fun a => a * 1) (map (fun a => a * / 10 ^ 6) [1; 2; 3; 4]))). set (i := map (fun a => a - 0) (map (fun a => a * 1) (map (fun a => a * / 10 ^ 6) [1 / 2; 1; 3 / 2; 2]))).
  assert (EL : loaded insertion_argsort m p = Ok (map (fun a => a * 1) (map (fun a => a * / 10 ^ 6) [1; 2; 3; 4]), map (fun a => a * 1) (map (fun a => a * / 10 ^ 6) [1 / 2; 1; 3 / 2; 2]))).
  { unfold loaded. unfold m. rewrite (load_rising insertion_argsort (p_v_fmt p) (p_i_fmt p) (/ 10 ^ 6) (/ 10 ^ 6)); [|exact insertion_sorts|reflexivity|reflexivity|reflexivity|cbn; lia|].
    - cbn [bind]. rewrite <- (map_map (fun a => a * / 10 ^ 6) FV), <- (map_map (fun a => a * / 10 ^ 6) FV [1 / 2; 1; 3 / 2; 2]). rewrite !reals_map. reflexivity.
    - cbn [List.length]. intros j k IJ J. cases_nat j; cases_nat k; try lia; cbn; lra. }
  assert (EO : correct_offset minimize (map (fun a => a * 1) (map (fun a => a * / 10 ^ 6) [1; 2; 3; 4])) (map (fun a => a * 1) (map (fun a => a * / 10 ^ 6) [1 / 2; 1; 3 / 2; 2])) (p_voffset p) (p_ioffset p) (p_voffset_range p) = Ok (v, i, (0, 0))).
  { rewrite unipolar; [reflexivity|discriminate|]. intros [[a [A B]] _]. cbn in A, B. destruct A as [<-|[<-|[<-|[<-|[]]]]]; lra. }
  assert (IV : forall a, In a v -> 0 < a <= 4 / 10 ^ 6) by (intros a A; cbn in A; destruct A as [<-|[<-|[<-|[<-|[]]]]]; lra).
  assert (LN : on_the_line (List.combine v i) (1 / 2) 0) by (intros q Q; cbn in Q; destruct Q as [<-|[<-|[<-|[<-|[]]]]]; cbn; lra).
  assert (SP : spread (List.combine v i)). { eexists. eexists. split; [left; reflexivity|]. split; [right; left; reflexivity|]. cbn. lra. }
  assert (EN : find_normal_resistance v i (p_vrn p) = Ok (/ (1 / 2), - 0 / (1 / 2))).
  { change (p_vrn p) with (0, 1). assert (W : samples_within 0 1 v i = List.combine v i) by (apply within_all; intros a A; specialize (IV a A); lra). apply normal_line; rewrite ?W; try assumption; [reflexivity|lra]. }
  assert (ES : find_subgap_resistance v i (p_vrsg p) = Ok (/ (1 / 2))).
  { assert (W : samples_within (p_vrsg p - 1 / 10 ^ 4) (p_vrsg p + 1 / 10 ^ 4) v i = List.combine v i) by (apply within_all; intros a A; specialize (IV a A); cbn; lra). apply subgap_line with 0; rewrite ?W; try assumption; [reflexivity|lra]. }
  assert (EQ : quot (3 / 10 ^ 6) (/ (1 / 2)) = Ok (3 / 10 ^ 6 / / (1 / 2))) by (apply quot_eq; lra).
  assert (DC : exists V I d, dciv_curve minimize savgol insertion_argsort m p = Ok (V, I, d) /\ dc_vgap d = 3 / 10 ^ 6 /\ dc_igap d = 3 / 10 ^ 6 / / (1 / 2) /\ dc_offset d = (0, 0)).
  { unfold dciv_curve. rewrite EL. cbn [bind]. rewrite EO. cbn [bind]. rewrite processed_plain by reflexivity. cbn [bind]. change (p_vgap p) with (Some (3 / 10 ^ 6)). cbn [bind]. rewrite EN. cbn [bind]. rewrite ES. cbn [bind]. rewrite EQ. cbn [bind].
    destruct (Reqb_spec (3 / 10 ^ 6) 0); [lra|]. cbn [negb guard bind]. unfold np_interp. cbn [List.length map v i Nat.eqb negb guard bind]. eexists. eexists. eexists. split; [reflexivity|]. cbn. auto. }
  destruct DC as [V [I [d [DC [D1 [D2 D3]]]]]]. exists p, V, I, d. rewrite D1. split; [lra|]. split; [reflexivity|]. split; [reflexivity|]. split; [cbn; lra|]. split; [assumption|].
  unfold iv_curve. rewrite EL. cbn [bind]. change (p_voffset p) with (@None R). rewrite D3. rewrite processed_plain by reflexivity. cbn [bind]. rewrite D1, D2.
  destruct (Reqb_spec (3 / 10 ^ 6) 0); [lra|]. destruct (Reqb_spec (3 / 10 ^ 6 / / (1 / 2)) 0); [lra|]. cbn [negb andb guard bind]. unfold np_interp_zero, np_interp. cbn [List.length map Nat.eqb negb guard bind]. eexists. reflexivity.
Qed.
