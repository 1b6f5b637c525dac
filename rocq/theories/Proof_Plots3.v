(** A measurement for which the theorems about the figures apply. *)
From Coq Require Import List ZArith Lia Bool Arith Reals Lra String.
From Coquelicot Require Import Complex.
From Verif Require Import Base Model_QtCurrent Spec_QtCurrent Float NumPy Spec_CleanData Proof_CleanData Model_CleanData Model_MathFn Spec_RespFn Model_RespFn Spec_IVData Model_IVData Spec_IFData Model_IFData
  Model_Tucker Model_ExpData Spec_ExpData Model_Objects Spec_Objects Spec_Objects2 Model_Plots Spec_Plots Proof_Circuit Proof_IVModels Proof_NumPy Proof_IVLoad Proof_IVData Proof_IVCurve Proof_IVCurve2 Proof_IVCases Proof_IFNoise Proof_IFLoad Proof_IFLoad2 Proof_IFShot Proof_IFCases
  Proof_RespFn Proof_RespFn2 Proof_ExpData Proof_Recover2 Proof_Recover3 Proof_ExpCases Proof_Objects Proof_Objects2 Proof_Objects3 Proof_Objects4.
From Verif Require Proof_Slope.
Import ListNotations.
Open Scope R_scope.
Local Notation length := List.length.
Local Notation Forall := List.Forall.
Local Notation rising := Spec_RespFn.increasing.

(** 31 IF samples; the embedding impedance and the fit interval can be given. *)
Definition shown (z : option C) (r : option (R * R)) (cl ch : option R) : options := {|
  o_v_fmt := "mV"%string; o_i_fmt := "mA"%string; o_vmax := 6 / 10 ^ 3; o_npts := 61;
  o_ioffset := None; o_voffset := None; o_voffset_range := Limits (- (1 / 10 ^ 3)) (1 / 10 ^ 3);
  o_rseries := None; o_i_multiplier := 1; o_v_multiplier := 1; o_ifdata_npts := 31;
  o_filter_data := false; o_filter_theta := 785 / 1000; o_filter_nwind := 21%Z; o_filter_npoly := 3%Z;
  o_ifdata_sigma := None; o_analyze_iv := true; o_analyze_if := true; o_area := 15 / 10;
  o_freq := Some 230; o_vgap := Some (3 / 10 ^ 3); o_vrn := (35 / 10 ^ 4, 45 / 10 ^ 4); o_vrsg := 2 / 10 ^ 3;
  o_vleak := 2 / 10 ^ 3; o_vshot := Some (One (-1) 1); o_fit_range := r; o_remb_range := (1, 2);
  o_xemb_range := (-1, 1); o_zemb := z; o_alpha_max := 3 / 2; o_num_b := 0%nat; o_t_cold := 78;
  o_t_hot := 293; o_vbest := Some (3 / 10 ^ 3); o_best_pt := "Max Gain"%string; o_v_smear := Some (20 / 1000);
  o_cut_low := cl; o_cut_high := ch |}.
Section Options.
Variables (z : option C) (r : option (R * R)) (cl ch : option R).
Local Notation opt := (shown z r cl ch).
Lemma shown_load dc a b : dc_vgap dc = 3 / 10 ^ 3 -> dc_offset dc = (0, 0) -> exists P,
  load_if insertion_argsort {| ncols := 2; rows := measured [0; 6] [a; b] |} dc (if_options opt) = Ok (linspace 0 2 31, P) /\ P = map (fun t => a + (b - a) * t / 2) (linspace 0 2 31).
Proof.
  intros G O. assert (GP : 0 < dc_vgap dc) by lra. destruct (load_total insertion_argsort dc (if_options opt) (/ 10 ^ 3) [0; 6] [a; b]) as [V [P E]]; try reflexivity; try assumption; try (cbn; lra); try (cbn; lia); [exact insertion_sorts|apply rising2; lra|].
  pose proof E as GR. apply load_grid in GR; [|exact insertion_sorts]. destruct GR as [_ [EV LP]]. cbn [if_options q_vmax q_npts shown o_vmax o_ifdata_npts] in EV, LP. rewrite G in EV. replace (6 / 10 ^ 3 / (3 / 10 ^ 3)) with 2 in EV by field. subst V. exists P. split; [assumption|]. apply (list_ext _ _ 0); [now rewrite map_length, linspace_length|]. rewrite LP.
  rewrite (load_rows insertion_argsort dc (if_options opt) (/ 10 ^ 3)) in E; [|exact insertion_sorts|reflexivity|reflexivity|cbn; lia|apply rising2; lra].
  unfold load_rest in E. cbn [if_options q_v_multiplier q_rseries q_vmax q_npts q_sigma shown o_rseries o_v_multiplier o_vmax o_ifdata_npts o_ifdata_sigma if_series bind map] in E. rewrite O in E. cbn [fst] in E. rewrite Reqb_f in E by lra. cbn [negb guard bind] in E.
  destruct (strictly_increasing _); [|discriminate]. cbn [guard bind] in E.
  unfold np_interp_zero, np_interp in E. cbn [List.length Nat.eqb negb guard bind if_smooth] in E. apply ok_inj in E. apply (f_equal snd) in E. cbn [snd] in E. intros k K. rewrite <- E.
  rewrite (nth_map_in _ _ k 0 0) by (rewrite linspace_length; assumption). rewrite (nth_map_in _ _ k 0 0) by (rewrite linspace_length; assumption). rewrite !linspace_nth by assumption. rewrite G. cbn [Nat.sub].
  assert (B : 0 <= INR k <= 30). { split; [apply pos_INR|]. replace 30 with (INR 30) by (rewrite INR_IZR_INZ; reflexivity). apply le_INR. lia. } replace (INR 30) with 30 by (rewrite INR_IZR_INZ; reflexivity).
  match goal with |- context [np_interp1 _ _ ?q] => set (t := q) end. assert (T : t = INR k / 15) by (unfold t; field). clearbody t. cbn [nth]. rewrite !Rltb_f by lra. cbn [orb].
  rewrite (interp_closed _ _ t 0); [|apply rising2; lra|reflexivity|cbn; lia|cbn [nth]; lra]. cbn [nth]. rewrite T. field.
Qed.
Lemma grid_in t : In t (linspace 0 2 31) -> 0 <= t <= 2.
Proof. intros H. destruct (In_nth _ _ 0 H) as [k [K <-]]. rewrite linspace_length in K. rewrite linspace_nth by assumption. cbn [Nat.sub]. replace (INR 30) with 30 by (rewrite INR_IZR_INZ; reflexivity). assert (B : 0 <= INR k <= 30). { split; [apply pos_INR|]. replace 30 with (INR 30) by (rewrite INR_IZR_INZ; reflexivity). apply le_INR. lia. } lra. Qed.
Lemma shown_fit dc a b : dc_vgap dc = 3 / 10 ^ 3 -> a < b ->
  let x := linspace 0 2 31 in let y := map (fun t => a + (b - a) * t / 2) x in
  let P := fit_samples [(-1, 1)] (dc_vgap dc) x y in spread P /\ on_the_line P ((b - a) / 2) a.
Proof.
  intros G AB x y P. assert (LX : length x = 31%nat) by apply linspace_length. assert (LY : length y = 31%nat) by (unfold y; now rewrite map_length).
  assert (NX : forall k, (k < 31)%nat -> nth k x 0 = INR k / 15). { intros k K. unfold x. rewrite linspace_nth by assumption. cbn [Nat.sub]. replace (INR 30) with 30 by (rewrite INR_IZR_INZ; reflexivity). field. }
  assert (E : P = List.combine x y).
  { assert (S : shot_samples [(-1, 1)] (dc_vgap dc) x y = List.combine x y).
    { unfold shot_samples. rewrite <- (filter_all (List.combine x y)) at 2. apply filter_ext_in. intros [t u] Hp. apply in_combine_l in Hp. cbn [fst]. unfold in_ranges. cbn [existsb fst snd]. rewrite G. apply grid_in in Hp.
      destruct (Rlt_dec (-1) (t * (3 / 10 ^ 3))); [|exfalso; lra]. destruct (Rlt_dec (t * (3 / 10 ^ 3)) 1); [|exfalso; lra]. reflexivity. }
    unfold P, fit_samples. rewrite S. rewrite combine_length, LX, LY. reflexivity. }
  rewrite E. split.
  - exists (nth 0 x 0, nth 0 y 0), (nth 30 x 0, nth 30 y 0). rewrite <- !combine_nth by congruence. split; [apply nth_In; rewrite combine_length; lia|]. split; [apply nth_In; rewrite combine_length; lia|]. rewrite !combine_nth by congruence. cbn [fst]. rewrite !NX by lia. cbn [INR]. replace (INR 30) with 30 by (rewrite INR_IZR_INZ; reflexivity). lra.
  - intros p Hp. apply (In_nth _ _ (0, 0)) in Hp. destruct Hp as [k [K <-]]. rewrite combine_length in K. rewrite combine_nth by congruence. cbn [fst snd]. unfold y. rewrite (nth_map_in _ _ k 0 0) by lia. field.
Qed.
End Options.

Section Case.
Variable minimize : (R * R -> R) -> R * R -> R * R.
Variable savgol : list R -> Z -> Z -> list R.
Variable J : nat -> R -> R.
Hypothesis J0 : J 0%nat (3 / 2) <> 0.
Hypothesis J1 : J 1%nat (3 / 2) <> 0.
Hypothesis J2 : (J 0%nat (3 / 2)) ^ 2 <> 1.
Variable dspline : list R -> list R -> Z -> R -> R.
Variables (z : option C) (r : option (R * R)) (cl ch : option R).
Hypothesis HR : r = Some (25 / 100, 8 / 10) \/ (r = None /\ cl = Some (25 / 100) /\ ch = Some (2 / 10)).
Local Notation opt := (shown z r cl ch).
Local Notation DC := (dc_data insertion_argsort minimize savgol ones dspline).
Local Notation PUMPED := (pumped_data insertion_argsort savgol J).
Lemma shown_noise dc a b : dc_vgap dc = 3 / 10 ^ 3 -> a < b -> let x := linspace 0 2 31 in
  exists n c l fit, find_if_noise savgol x (map (fun t => a + (b - a) * t / 2) x) dc (Some (One (-1) 1)) = Ok (n, c, l, fit) /\ 0 < c.
Proof.
  intros G AB x. destruct (shown_fit dc a b G AB) as [SP OL].
  destruct (shot_exact savgol x (map (fun t => a + (b - a) * t / 2) x) dc (One (-1) 1) ((b - a) / 2) a) as [n [c [l [fit [E [C _]]]]]]; try assumption; try discriminate; try lra; [symmetry; apply map_length|].
  exists n, c, l, fit. split; [assumption|]. rewrite G in C. assert (0 < c * ((b - a) / 2)) by lra. destruct (Rlt_or_le 0 c) as [|N]; [assumption|]. exfalso. nra.
Qed.
Lemma dc_shown : exists d, DC file None opt = Ok d /\ dc_rn (d_dc d) = / (1 / 10) /\ dc_vgap (d_dc d) = 3 / 10 ^ 3 /\ dc_igap (d_dc d) = 3 / 10 ^ 3 / / (1 / 10) /\ dc_offset (d_dc d) = (0, 0) /\ dc_fgap (d_dc d) = sc_e * (3 / 10 ^ 3) / sc_h.
Proof.
  apply (file_case minimize savgol ones dspline opt (/ (1 / 10)) (- 0 / (1 / 10)) (3 / 10 ^ 3)); try reflexivity; try lra; try exact file_documented; try (cbn; lra); try (cbn; lia).
  exists 40%nat. split; [cbn; lia|]. cbn [shown o_vmax o_npts Nat.sub]. replace (INR 60) with 60 by (rewrite INR_IZR_INZ; reflexivity). replace (INR 40) with 40 by (rewrite INR_IZR_INZ; reflexivity). lra.
Qed.
Lemma dc_if_shown : exists d v q c, DC file (Some cold_file) opt = Ok d /\ d_if d = Some (v, q, c) /\ dc_vgap (d_dc d) = 3 / 10 ^ 3 /\ length v = 31%nat.
Proof.
  destruct dc_shown as [d [D [_ [G [_ [O _]]]]]]. destruct (shown_load z r cl ch (d_dc d) 1 7 G O) as [P [L EP]].
  destruct (shown_noise (d_dc d) 1 7 G ltac:(lra)) as [n [c [l [fit [N _]]]]]. destruct (amax_some (linspace 0 2 31)) as [top T]; [discriminate|].
  destruct (dc_with_if minimize savgol dspline file cold_file opt d (linspace 0 2 31, map (fun a => a * c) P, {| if_noise := n; if_corr := c; if_fit := fit; if_shot := (linspace 0 2 31, l); if_vmax := top * dc_vgap (d_dc d) |}) D) as [d' [D' [E1 E2]]].
  - unfold dcif_data, cold_file. rewrite L. cbn [bind if_options q_vshot shown o_vshot]. rewrite EP. cbv zeta in N. rewrite N. cbn [bind]. rewrite T. reflexivity.
  - exists d'. do 3 eexists. split; [exact D'|]. split; [exact E2|]. rewrite E1, G. split; [reflexivity|]. apply linspace_length.
Qed.
Lemma near_15 k : smallest (map (fun a => Rabs (a * (3 / 10 ^ 3) - 3 / 10 ^ 3)) (linspace 0 2 31)) k -> k = 15%nat.
Proof.
  intros [K H]. rewrite map_length, linspace_length in *. specialize (H 15%nat ltac:(lia)). assert (NX : forall k, (k < 31)%nat -> nth k (linspace 0 2 31) 0 = INR k / 15). { intros i I. rewrite linspace_nth by assumption. cbn [Nat.sub]. replace (INR 30) with 30 by (rewrite INR_IZR_INZ; reflexivity). field. }
  rewrite !(nth_map_in _ _ _ _ 0) in H by (rewrite linspace_length; lia). rewrite !NX in H by lia. replace (INR 15) with 15 in H by (rewrite INR_IZR_INZ; reflexivity). replace (Rabs (15 / 15 * (3 / 10 ^ 3) - 3 / 10 ^ 3)) with 0 in H by (rewrite Rabs_right by lra; field).
  pose proof (Rabs_pos (INR k / 15 * (3 / 10 ^ 3) - 3 / 10 ^ 3)) as P. assert (Z : INR k / 15 * (3 / 10 ^ 3) - 3 / 10 ^ 3 = 0) by (destruct (Req_dec (INR k / 15 * (3 / 10 ^ 3) - 3 / 10 ^ 3) 0) as [|N]; [assumption|apply Rabs_pos_lt in N; lra]).
  apply INR_eq. replace (INR 15) with 15 by (rewrite INR_IZR_INZ; reflexivity). lra.
Qed.
Lemma shown_analysis dc : dc_vgap dc = 3 / 10 ^ 3 -> dc_offset dc = (0, 0) -> exists ph pc tn gain meta g,
  if_data savgol insertion_argsort hot_file cold_file dc None (if_options opt) = Ok (linspace 0 2 31, ph, pc, tn, gain, 15%nat, meta) /\ length tn = 31%nat /\ length gain = 31%nat /\ nth 15 gain FNaN = FV g /\ 0 < g /\
  (forall p, In p ph -> p <> 0) /\ length ph = 31%nat /\ (exists t, nth 15 tn FNaN = FV t) /\ (forall x, In x gain -> exists y, x = FV y).
Proof.
  intros G O. assert (GP : 0 < dc_vgap dc) by lra. rewrite if_data_eq by exact insertion_sorts.
  destruct (shown_load z r cl ch dc 2 14 G O) as [H [LH NH]]. destruct (shown_load z r cl ch dc 1 7 G O) as [P [LC NC]]. set (x := linspace 0 2 31) in *. assert (LX : length x = 31%nat) by apply linspace_length. assert (LPH : length H = 31%nat) by (rewrite NH, map_length; exact LX). assert (LPC : length P = 31%nat) by (rewrite NC, map_length; exact LX).
  unfold hot_file, cold_file. rewrite LH, LC. cbn [bind fst snd]. unfold Proof_IFShot.calibration. cbn [if_options q_vshot shown o_vshot].
  assert (AV : average H P = map (fun t => 3 / 2 + (21 / 2 - 3 / 2) * t / 2) x). { rewrite NH, NC. unfold average. clear. induction x as [|t x IH]; [reflexivity|]. cbn [map zipwith]. rewrite IH. f_equal. field. } rewrite AV.
  destruct (shown_noise dc (3 / 2) (21 / 2) G ltac:(lra)) as [n [c [l [fit [N CP]]]]]. cbv zeta in N. fold x in N. rewrite N. cbn [rmap bind].
  destruct (best_requested x (map (fun a => a * c) H) (map (fun a => a * c) P) (dc_vgap dc) (if_options opt) 230 eq_refl ltac:(lra) ltac:(cbn; lra) ltac:(cbn; lra) ltac:(rewrite map_length; congruence) ltac:(rewrite map_length; congruence) (3 / 10 ^ 3) eq_refl ltac:(discriminate)) as [tn [gain [idx [FT SM]]]].
  rewrite G in SM. apply near_15 in SM. subst idx. rewrite FT. cbn [bind]. destruct (amax_some x ltac:(discriminate)) as [top T]. rewrite T. cbn [bind].
  destruct (analysis_lists x (map (fun a => a * c) H) (map (fun a => a * c) P) (dc_vgap dc) (if_options opt) 230 eq_refl ltac:(lra) ltac:(cbn; lra) ltac:(cbn; lra) ltac:(rewrite map_length; congruence) ltac:(rewrite map_length; congruence) _ _ _ FT) as [ET EG].
  cbn [if_options q_t_hot q_t_cold shown o_t_hot o_t_cold] in ET, EG. set (Th := callen_welton _ 293) in *. set (Tc := callen_welton _ 78) in *.
  assert (TT : Tc < Th) by (apply cw_rises; lra).
  do 6 eexists. split; [reflexivity|]. split; [rewrite ET, zip_combine, map_length, combine_length, !map_length, LPH, LPC; reflexivity|]. split; [rewrite EG, zip_combine, map_length, combine_length, !map_length, LPH, LPC; reflexivity|].
  assert (X15 : nth 15 x 0 = 1). { unfold x. rewrite linspace_nth by lia. cbn [Nat.sub]. replace (INR 30) with 30 by (rewrite INR_IZR_INZ; reflexivity). replace (INR 15) with 15 by (rewrite INR_IZR_INZ; reflexivity). field. }
  assert (H15 : nth 15 (map (fun a => a * c) H) 0 = 8 * c). { rewrite (nth_map_in _ _ _ _ 0) by lia. rewrite NH. rewrite (nth_map_in _ _ _ _ 0) by lia. rewrite X15. field. }
  assert (P15 : nth 15 (map (fun a => a * c) P) 0 = 4 * c). { rewrite (nth_map_in _ _ _ _ 0) by lia. rewrite NC. rewrite (nth_map_in _ _ _ _ 0) by lia. rewrite X15. field. }
  split; [|split; [|split; [|split; [|split]]]].
  - rewrite EG. rewrite (nth_zipwith _ _ _ _ 0 0 FNaN) by (rewrite ?map_length; lia). rewrite H15, P15. unfold gain_at. cbn [fdiv]. rewrite Reqb_f by lra. reflexivity.
  - apply Rdiv_lt_0_compat; lra.
  - intros p Hp. apply in_map_iff in Hp. destruct Hp as [a [<- A]]. rewrite NH in A. apply in_map_iff in A. destruct A as [t [<- A]]. apply grid_in in A. assert (0 < (2 + (14 - 2) * t / 2) * c) by (apply Rmult_lt_0_compat; lra). lra.
  - rewrite map_length. exact LPH.
  - rewrite ET. rewrite (nth_zipwith _ _ _ _ 0 0 FNaN) by (rewrite ?map_length; lia). rewrite H15, P15. assert (TP : 0 < Tc < Th) by (split; [pose proof (cw_above_T (230 * 10 ^ 9) 78 ltac:(lra) ltac:(lra)) as CW; fold Tc in CW; lra|assumption]).
    destruct (tn_number Th Tc (8 * c) (4 * c) TP) as [E|E]; [|exact E]. apply (tn_bounds Th Tc (8 * c) (4 * c) TP) in E. exfalso. lra.
  - rewrite EG. intros q Hq. apply (In_nth _ _ FNaN) in Hq. destruct Hq as [k [K <-]]. rewrite zipwith_length in K by (rewrite !map_length; congruence). rewrite (nth_zipwith _ _ _ _ 0 0 FNaN) by (rewrite ?map_length in *; lia). unfold gain_at. cbn [fdiv]. rewrite Reqb_f by lra. eauto.
Qed.
Lemma shown_summary V I tn gain g rn : length V = 61%nat -> length I = 61%nat -> (forall k, (k < 61)%nat -> nth k V 0 = -2 + INR k / 15) ->
  (forall k, (k < 61)%nat -> 29 / 30 <= nth k V 0 <= 5 / 3 -> nth k I 0 = 100 / 21 * nth k V 0 + ((J 0%nat (3 / 2)) ^ 2 - 100 / 21 * (29 / 30))) ->
  length tn = 31%nat -> length gain = 31%nat -> nth 15 gain FNaN = FV g -> 0 < g -> exists s, if_summary V I (linspace 0 2 31) tn gain 15 rn = Ok s.
Proof.
  intros LV LI EV EI LT LG EG GP.
  destruct (summary_full J V I (repeat FNaN 7) [FNaN; FNaN; FNaN; FV g; FNaN; FNaN; FNaN] g rn LV LI EV EI eq_refl eq_refl eq_refl GP) as [s S]. unfold if_summary in *.
  rewrite (pyget_nth tn (Z.of_nat 15) FNaN) by lia. cbn [bind]. rewrite (pyget_nth gain (Z.of_nat 15) FNaN) by lia. cbn [bind]. change (Z.of_nat 15 <? 0)%Z with false. cbv iota. change (Z.to_nat (Z.of_nat 15)) with 15%nat. rewrite EG. cbn [bind]. rewrite Rltb_t by assumption. cbn [guard bind].
  rewrite (pyget_nth (linspace 0 2 31) (Z.of_nat 15) 0) by (rewrite linspace_length; lia). cbn [bind]. change (Z.of_nat 15 <? 0)%Z with false. cbv iota. change (Z.to_nat (Z.of_nat 15)) with 15%nat. 
  replace (nth 15 (linspace 0 2 31) 0) with 1 by (rewrite linspace_nth by lia; cbn [Nat.sub]; replace (INR 30) with 30 by (rewrite INR_IZR_INZ; reflexivity); replace (INR 15) with 15 by (rewrite INR_IZR_INZ; reflexivity); field).
  apply bind_ok in S. destruct S as [t [_ S]]. apply bind_ok in S. destruct S as [g' [G1 S]]. apply bind_ok in S. destruct S as [g2 [G2 S]]. apply bind_ok in S. destruct S as [[] [G3 S]]. apply bind_ok in S. destruct S as [vb [V1 S]]. cbn in V1. injection V1 as <-.
  apply bind_ok in S. destruct S as [i [A S]]. rewrite A. cbn [bind]. apply bind_ok in S. destruct S as [p [P S]]. rewrite P. cbn [bind]. apply bind_ok in S. destruct S as [zj [Q S]]. rewrite Q. cbn [bind]. eauto.
Qed.
Lemma shown_iv dc : iv_curve savgol insertion_argsort (pumped_file J) dc (iv_options opt) = iv_curve savgol insertion_argsort (pumped_file J) dc (iv_options full).
Proof. reflexivity. Qed.
(** Everything succeeds. *)
Lemma shown_case : exists d u n rr,
  DC file None opt = Ok d /\ PUMPED (pumped_file J) d (Some hot_file) (Some cold_file) opt = Ok u /\ dc_vgap (d_dc d) = 3 / 10 ^ 3 /\ dc_rn (d_dc d) = 10 /\ dc_fgap (d_dc d) = sc_e * (3 / 10 ^ 3) / sc_h /\ d_if d = None /\ u_if u = Some n /\ u_recovered u = Some rr /\
  recover_zemb J (idc (d_resp d)) (ikk (d_resp d)) (u_voltage u) (u_current u) (230 * 10 ^ 9 / dc_fgap (d_dc d)) (rec_options (shown z (Some (25 / 100, 8 / 10)) cl ch)) = Ok rr /\
  (let B := step_samples (230 * 10 ^ 9 / dc_fgap (d_dc d)) (25 / 100) (8 / 10) (u_voltage u) (u_current u) in B <> [] /\ forall p, In p B -> snd p = (J 0%nat (3 / 2)) ^ 2) /\
  length (n_hot n) = 31%nat /\ (forall p, In p (n_hot n) -> p <> 0) /\ (exists t, nth (n_best n) (n_tn n) FNaN = FV t) /\ (forall x, In x (n_gain n) -> exists y, x = FV y).
Proof.
  destruct dc_shown as [d [D [RN [G [IG [O FG]]]]]]. destruct (resp_ones minimize savgol dspline _ _ _ _ D) as [R1 R2]. destruct (dc_inv _ _ _ _ _ _ _ _ _ D) as [_ [_ [_ [_ DIF]]]].
  destruct (iv_full savgol J (d_dc d) G ltac:(rewrite IG; lra) O) as [V [I [IV [LV [LI S]]]]]. destruct (shown_analysis (d_dc d) G O) as [ph [pc [tn [gain [meta [g [IF [LT [LG [EG [GP [HN [LH [TN GN]]]]]]]]]]]]]].
  destruct (shown_summary V I tn gain g (dc_rn (d_dc d)) LV LI) as [su SU]; try assumption; [intros k K; now apply S|intros k K; now apply S|].
  set (vph := 230 * 10 ^ 9 / dc_fgap (d_dc d)). pose proof vph_full as VP. assert (VB : 3 / 10 < vph < 33 / 100) by (unfold vph; rewrite FG; exact VP). clear VP.
  assert (FP : dc_fgap (d_dc d) <> 0) by (rewrite FG; unfold sc_e, sc_h; lra).
  set (B := step_samples vph (25 / 100) (8 / 10) V I).
  assert (BS : forall p, In p B -> snd p = (J 0%nat (3 / 2)) ^ 2).
  { intros [t y] Hp. unfold B, step_samples in Hp. apply filter_In in Hp. destruct Hp as [Hp C]. apply (In_nth _ _ (0, 0)) in Hp. destruct Hp as [k [K EP]]. rewrite combine_length in K. rewrite combine_nth in EP by congruence. injection EP as ET EY. cbn [fst snd] in *.
    destruct (Rle_dec _ t) as [C1|]; [|discriminate]. destruct (Rle_dec t _) as [C2|]; [|discriminate]. rewrite <- EY. destruct (S k ltac:(lia)) as [_ [S2 _]]. apply S2. rewrite ET. lra. }
  assert (BN : B <> []).
  { intros E. assert (Hp : In (nth 42 V 0, nth 42 I 0) B); [|rewrite E in Hp; destruct Hp]. unfold B, step_samples. apply filter_In. split; [rewrite <- combine_nth by congruence; apply nth_In; rewrite combine_length; lia|]. cbn [fst].
    destruct (S 42%nat ltac:(lia)) as [-> _]. replace (INR 42) with 42 by (rewrite INR_IZR_INZ; reflexivity). destruct (Rle_dec _ _) as [|N]; [|exfalso; apply N; lra]. destruct (Rle_dec _ _) as [|N]; [reflexivity|exfalso; apply N; lra]. }
  set (q := rec_options (shown z (Some (25 / 100, 8 / 10)) cl ch)).
  assert (RU : range_used q (25 / 100) (8 / 10)) by (left; reflexivity).
  destruct (recover_total J (idc (d_resp d)) (ikk (d_resp d)) V I vph q (25 / 100) (8 / 10) ltac:(congruence) RU) as [rr RR]; [exact BN|intros p _; cbn [q rec_options r_alpha_max r_num_b shown o_alpha_max o_num_b]; rewrite pumped_ones by assumption; rewrite R1; exact J2|].
  assert (RO : recover_zemb J (idc (d_resp d)) (ikk (d_resp d)) V I vph (rec_options opt) = Ok rr).
  { destruct HR as [->|[-> [-> ->]]]; [exact RR|]. rewrite <- RR. unfold recover_zemb. f_equal. unfold fit_limits, q. cbn [rec_options r_fit_range r_cut_high r_cut_low shown o_fit_range o_cut_low o_cut_high]. cbn [bind]. replace (1 - (1 - 2 / 10)) with (1 - 8 / 10) by lra. reflexivity. }
  destruct (Proof_Slope.span_spec I V ltac:(congruence) 10 ltac:(lia) true ltac:(rewrite LI; lia)) as [rd [ER _]]. change (2 * Z.of_nat 10 + 1)%Z with 21%Z in ER.
  exists d. assert (PU : exists u n, PUMPED (pumped_file J) d (Some hot_file) (Some cold_file) opt = Ok u /\ u_if u = Some n /\ u_recovered u = Some rr /\ u_voltage u = V /\ u_current u = I /\ n_hot n = ph /\ n_tn n = tn /\ n_gain n = gain /\ n_best n = 15%nat).
  { unfold pumped_data. cbn [shown o_freq bind]. rewrite !quot_eq by assumption. cbn [bind]. fold (shown z r cl ch). rewrite shown_iv, IV. cbn [bind]. rewrite ER. cbn [bind shown o_analyze_iv o_analyze_if]. fold (shown z r cl ch). fold vph. rewrite RO. cbn [bind].
    unfold Model_Objects.calibration. rewrite DIF, IF. cbn [bind]. rewrite SU. cbn [bind]. eexists. eexists. split; [reflexivity|]. cbn. auto 10. }
  destruct PU as [u [n [PU [UI [UR [UV [UC [NH [NT [NG NB]]]]]]]]]]. exists u, n, rr. rewrite UV, UC, NH, NT, NG, NB. split; [assumption|]. split; [assumption|]. split; [assumption|]. split; [rewrite RN; field|]. split; [assumption|]. split; [assumption|]. split; [assumption|]. split; [assumption|].
  split; [exact RR|]. split; [split; assumption|]. auto.
Qed.
End Case.
Lemma where_all (h : list R) : (forall p, In p h -> p <> 0) -> where_nonzero h h = h.
Proof.
  unfold where_nonzero. induction h as [|a h IH]; intros H; [reflexivity|]. cbn [List.combine filter fst]. destruct (Req_EM_T a 0) as [E|E]; [exfalso; apply (H a); [now left|assumption]|]. cbn [map snd]. f_equal. apply IH. intros p P. apply H. now right.
Qed.
Lemma shown_hypotheses minimize savgol J : J 0%nat (3 / 2) <> 0 -> J 1%nat (3 / 2) <> 0 -> (J 0%nat (3 / 2)) ^ 2 <> 1 -> forall dspline, let o := shown None (Some (25 / 100, 8 / 10)) None None in exists d u n,
  dc_data insertion_argsort minimize savgol ones dspline file None o = Ok d /\ dc_vgap (d_dc d) = 3 / 10 ^ 3 /\
  pumped_data insertion_argsort savgol J (pumped_file J) d (Some hot_file) (Some cold_file) o = Ok u /\ o_freq o = Some 230 /\ u_if u = Some n /\
  sorting insertion_argsort /\ 0 < o_t_cold o < o_t_hot o /\ 0 < o_vmax o /\ (2 <= o_npts o)%nat /\
  (31 <= length (where_nonzero (n_hot n) (n_hot n)))%nat /\ (31 <= length (n_voltage n))%nat /\ (exists t, nth (n_best n) (n_tn n) FNaN = FV t) /\ (forall x, In x (n_gain n) -> exists y, x = FV y).
Proof.
  intros H0 H1 H2 dspline o. destruct (shown_case minimize savgol J H2 dspline None (Some (25 / 100, 8 / 10)) None None (or_introl eq_refl)) as [d [u [n [rr [D [U [G [_ [_ [_ [UI [_ [_ [_ [LH [HN [TN GN]]]]]]]]]]]]]]]]].
  exists d, u, n. split; [exact D|]. split; [assumption|]. split; [exact U|]. split; [reflexivity|]. split; [assumption|]. split; [exact insertion_sorts|]. split; [cbn; lra|]. split; [cbn; lra|]. split; [cbn; lia|]. rewrite where_all by assumption. split; [lia|]. split; [|auto].
  destruct (pumped_inv _ _ _ _ _ _ _ _ _ U) as [f' [_ [_ [_ [_ [_ [_ [_ R]]]]]]]]. cbn [o shown o_analyze_if] in R. destruct R as [n' [N' [R _]]]. rewrite UI in N'. injection N' as <-. destruct (if_lengths savgol insertion_argsort _ _ _ _ _ _ _ _ _ _ _ _ insertion_sorts R) as [L1 [L2 _]]. rewrite L1. cbn. lia.
Qed.
