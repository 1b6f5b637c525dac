(** A measurement for which the theorems about the keyword arguments apply. *)
From Coq Require Import List ZArith Lia Bool Arith Reals Lra String.
From Coquelicot Require Import Complex.
From Verif Require Import Base Model_QtCurrent Spec_QtCurrent Float NumPy Spec_CleanData Proof_CleanData Model_CleanData Model_MathFn Spec_RespFn Model_RespFn Spec_IVData Model_IVData Spec_IFData Model_IFData
  Model_Tucker Model_ExpData Spec_ExpData Model_Objects Spec_Objects Spec_Objects2 Proof_Circuit Proof_IVModels Proof_NumPy Proof_IVLoad Proof_IVData Proof_IVCurve Proof_IVCurve2 Proof_IVCases Proof_IFNoise Proof_IFLoad Proof_IFLoad2 Proof_IFShot Proof_IFCases
  Proof_RespFn Proof_RespFn2 Proof_ExpData Proof_Recover2 Proof_Recover3 Proof_ExpCases Proof_Objects Proof_Objects2 Proof_Objects3.
From Verif Require Proof_Slope.
Import ListNotations.
Open Scope R_scope.
Local Notation length := List.length.
Local Notation Forall := List.Forall.
Local Notation rising := Spec_RespFn.increasing.

(** Keyword arguments, all different from each other. *)
Definition full : options := {|
  o_v_fmt := "mV"%string; o_i_fmt := "mA"%string; o_vmax := 6 / 10 ^ 3; o_npts := 61;
  o_ioffset := None; o_voffset := None; o_voffset_range := Limits (- (1 / 10 ^ 3)) (1 / 10 ^ 3);
  o_rseries := None; o_i_multiplier := 1; o_v_multiplier := 1; o_ifdata_npts := 7;
  o_filter_data := false; o_filter_theta := 785 / 1000; o_filter_nwind := 21%Z; o_filter_npoly := 3%Z;
  o_ifdata_sigma := None; o_analyze_iv := true; o_analyze_if := true; o_area := 15 / 10;
  o_freq := Some 230; o_vgap := Some (3 / 10 ^ 3); o_vrn := (35 / 10 ^ 4, 45 / 10 ^ 4); o_vrsg := 2 / 10 ^ 3;
  o_vleak := 2 / 10 ^ 3; o_vshot := Some (One (-1) 1); o_fit_range := Some (25 / 100, 8 / 10); o_remb_range := (1, 2);
  o_xemb_range := (-1, 1); o_zemb := None; o_alpha_max := 3 / 2; o_num_b := 0%nat; o_t_cold := 78;
  o_t_hot := 293; o_vbest := Some (3 / 10 ^ 3); o_best_pt := "Max Gain"%string; o_v_smear := Some (20 / 1000);
  o_cut_low := None; o_cut_high := None |}.
(** Powers 1 at 0 mV and 7 at 6 mV (and twice that with the hot load). *)
Definition cold_file : matrix := {| ncols := 2; rows := measured [0; 6] [1; 7] |}.
Definition hot_file : matrix := {| ncols := 2; rows := measured [0; 6] [2; 14] |}.
(** A current that is constant between 2 and 2.9 mV and then rises. *)
Definition pumped_file (J : nat -> R -> R) : matrix := let c := 3 / 10 * (J 0%nat (3 / 2)) ^ 2 in
  {| ncols := 2; rows := measured [2; 29 / 10; 5] [c; c; c + 1] |}.

Lemma rising2 a b : a < b -> rising [a; b].
Proof. intros H i j IJ Hj. destruct i as [|i], j as [|[|j]]; cbn [List.length nth] in *; try lia; lra. Qed.
Lemma if_load dc a b : dc_vgap dc = 3 / 10 ^ 3 -> dc_offset dc = (0, 0) -> exists V P,
  load_if insertion_argsort {| ncols := 2; rows := measured [0; 6] [a; b] |} dc (if_options full) = Ok (V, P) /\ V = linspace 0 (6 / 10 ^ 3 / dc_vgap dc) 7 /\ length P = 7%nat /\
  forall k, (k < 7)%nat -> nth k P 0 = a + (b - a) * INR k / 6.
Proof.
  intros G O. assert (GP : 0 < dc_vgap dc) by lra. destruct (load_total insertion_argsort dc (if_options full) (/ 10 ^ 3) [0; 6] [a; b]) as [V [P E]]; try reflexivity; try assumption; try (cbn; lra); try (cbn; lia); [exact insertion_sorts|apply rising2; lra|].
  exists V, P. split; [assumption|]. pose proof E as GR. apply load_grid in GR; [|exact insertion_sorts]. destruct GR as [_ [EV LP]]. split; [assumption|]. split; [assumption|].
  rewrite (load_rows insertion_argsort dc (if_options full) (/ 10 ^ 3)) in E; [|exact insertion_sorts|reflexivity|reflexivity|cbn; lia|apply rising2; lra].
  unfold load_rest in E. cbn [if_options q_v_multiplier q_rseries q_vmax q_npts q_sigma full o_rseries o_v_multiplier o_vmax o_ifdata_npts o_ifdata_sigma if_series bind map] in E. rewrite O in E. cbn [fst] in E. rewrite Reqb_f in E by lra. cbn [negb guard bind] in E.
  destruct (strictly_increasing _); [|discriminate]. cbn [guard bind] in E.
  unfold np_interp_zero, np_interp in E. cbn [List.length Nat.eqb negb guard bind if_smooth] in E. apply ok_inj in E. apply (f_equal snd) in E. cbn [snd] in E. intros k K. rewrite <- E.
  rewrite (nth_map_in _ _ k 0 0) by (rewrite linspace_length; assumption). rewrite linspace_nth by assumption. rewrite G. cbn [Nat.sub].
  assert (B : 0 <= INR k <= 6). { split; [apply pos_INR|]. replace 6 with (INR 6) by (cbn; ring). apply le_INR. lia. } replace (INR 6) with 6 by (cbn; ring).
  set (t := 0 + _). assert (T : t = INR k / 3) by (unfold t; field). clearbody t. cbn [nth]. rewrite !Rltb_f by lra. cbn [orb].
  rewrite (interp_closed _ _ t 0); [|apply rising2; lra|reflexivity|cbn; lia|cbn [nth]; lra]. cbn [nth]. rewrite T. field.
Qed.
Lemma if_grid k : (k < 7)%nat -> nth k (linspace 0 (6 / 10 ^ 3 / (3 / 10 ^ 3)) 7) 0 = INR k / 3.
Proof. intros K. rewrite linspace_nth by assumption. replace (INR (7 - 1)) with 6 by (cbn; ring). field. Qed.
Lemma if_grid_list : linspace 0 (6 / 10 ^ 3 / (3 / 10 ^ 3)) 7 = [0; 1 / 3; 2 / 3; 1; 4 / 3; 5 / 3; 2].
Proof.
  apply (list_ext _ _ 0); [reflexivity|]. rewrite linspace_length. intros k K. rewrite if_grid by assumption. do 7 (destruct k as [|k]; [cbn; field|]). lia.
Qed.
Lemma if_powers a b P : length P = 7%nat -> (forall k, (k < 7)%nat -> nth k P 0 = a + (b - a) * INR k / 6) -> P = map (fun t => a + (b - a) * t / 2) [0; 1 / 3; 2 / 3; 1; 4 / 3; 5 / 3; 2].
Proof.
  intros L H. apply (list_ext _ _ 0); [assumption|]. rewrite L. intros k K. rewrite H by assumption. do 7 (destruct k as [|k]; [cbn; field|]). lia.
Qed.
Lemma filter_all {A} (l : list A) : filter (fun _ => true) l = l.
Proof. induction l as [|a l IH]; cbn; congruence. Qed.
Lemma fit_line dc a b : dc_vgap dc = 3 / 10 ^ 3 -> a < b ->
  let x := [0; 1 / 3; 2 / 3; 1; 4 / 3; 5 / 3; 2] in let y := map (fun t => a + (b - a) * t / 2) x in
  let P := fit_samples [(-1, 1)] (dc_vgap dc) x y in spread P /\ on_the_line P ((b - a) / 2) a.
Proof.
  intros G AB x y P. assert (E : P = List.combine x y).
  { assert (S : shot_samples [(-1, 1)] (dc_vgap dc) x y = List.combine x y).
    { unfold shot_samples. rewrite <- (filter_all (List.combine x y)) at 2. apply filter_ext_in. intros [t u] Hp. apply in_combine_l in Hp. cbn [fst]. unfold in_ranges. cbn [existsb fst snd]. rewrite G.
      assert (T : 0 <= t <= 2) by (unfold x in Hp; cbn [In] in Hp; repeat (destruct Hp as [<-|Hp]; [lra|]); destruct Hp).
      destruct (Rlt_dec (-1) (t * (3 / 10 ^ 3))); [|exfalso; lra]. destruct (Rlt_dec (t * (3 / 10 ^ 3)) 1); [|exfalso; lra]. reflexivity. }
    unfold P, fit_samples. rewrite S. reflexivity. }
  rewrite E. unfold x, y. split.
  - exists (0, a + (b - a) * 0 / 2), (2, a + (b - a) * 2 / 2). split; [now left|]. split; [do 6 right; now left|cbn [fst]; lra].
  - intros p Hp. cbn [map List.combine] in Hp. repeat (destruct Hp as [<-|Hp]; [cbn [fst snd]; field|]). destruct Hp.
Qed.

Section Case.
Variable minimize : (R * R -> R) -> R * R -> R * R.
Variable savgol : list R -> Z -> Z -> list R.
Variable J : nat -> R -> R.
Hypothesis J0 : J 0%nat (3 / 2) <> 0.
Hypothesis J1 : J 1%nat (3 / 2) <> 0.
Hypothesis J2 : (J 0%nat (3 / 2)) ^ 2 <> 1.
Variable dspline : list R -> list R -> Z -> R -> R.
Definition ones (x y : list R) (k : Z) (v : R) : R := 1.
Local Notation DC := (dc_data insertion_argsort minimize savgol ones dspline).
Local Notation PUMPED := (pumped_data insertion_argsort savgol J).

Lemma noise_total dc a b : dc_vgap dc = 3 / 10 ^ 3 -> a < b -> let x := [0; 1 / 3; 2 / 3; 1; 4 / 3; 5 / 3; 2] in
  exists n c l fit, find_if_noise savgol x (map (fun t => a + (b - a) * t / 2) x) dc (Some (One (-1) 1)) = Ok (n, c, l, fit) /\ 0 < c.
Proof.
  intros G AB x. destruct (fit_line dc a b G AB) as [SP OL].
  destruct (shot_exact savgol x (map (fun t => a + (b - a) * t / 2) x) dc (One (-1) 1) ((b - a) / 2) a) as [n [c [l [fit [E [C _]]]]]]; try assumption; try discriminate; try lra; [symmetry; apply map_length|].
  exists n, c, l, fit. split; [assumption|]. rewrite G in C. assert (0 < c * ((b - a) / 2)) by lra. destruct (Rlt_or_le 0 c) as [|N]; [assumption|]. exfalso. nra.
Qed.
(** The DC measurement. *)
Lemma dc_full : exists d, DC file None full = Ok d /\ dc_rn (d_dc d) = / (1 / 10) /\ dc_vgap (d_dc d) = 3 / 10 ^ 3 /\ dc_igap (d_dc d) = 3 / 10 ^ 3 / / (1 / 10) /\ dc_offset (d_dc d) = (0, 0) /\ dc_fgap (d_dc d) = sc_e * (3 / 10 ^ 3) / sc_h.
Proof.
  apply (file_case minimize savgol ones dspline full (/ (1 / 10)) (- 0 / (1 / 10)) (3 / 10 ^ 3)); try reflexivity; try lra; try exact file_documented; try (cbn; lra); try (cbn; lia).
  exists 40%nat. split; [cbn; lia|]. cbn [full o_vmax o_npts Nat.sub]. replace (INR 60) with 60 by (rewrite INR_IZR_INZ; reflexivity). replace (INR 40) with 40 by (rewrite INR_IZR_INZ; reflexivity). lra.
Qed.
Lemma dc_with_if m f o d r : DC m None o = Ok d -> dcif_data savgol insertion_argsort f (d_dc d) (if_options o) = Ok r ->
  exists d', DC m (Some f) o = Ok d' /\ d_dc d' = d_dc d /\ d_if d' = Some r.
Proof.
  intros D F. destruct (dc_inv _ _ _ _ _ _ _ _ _ D) as [A [B [C [E _]]]]. unfold dc_data. rewrite A. cbn [bind]. rewrite B. cbn [bind]. rewrite C. cbn [bind]. rewrite E. cbn [bind]. rewrite F. cbn [bind]. eexists. split; [reflexivity|]. split; reflexivity.
Qed.
Lemma dc_if_case : exists d v q c, DC file (Some cold_file) full = Ok d /\ d_if d = Some (v, q, c) /\ 0 < dc_vgap (d_dc d) /\ o_vshot full = Some (One (-1) 1) /\ ranges_of (One (-1) 1) <> [] /\ 0 < o_vmax full /\ (2 <= o_ifdata_npts full)%nat.
Proof.
  destruct dc_full as [d [D [_ [G [_ [O _]]]]]]. destruct (if_load (d_dc d) 1 7 G O) as [V [P [L [EV [LP NP]]]]]. rewrite G, if_grid_list in EV. apply if_powers in NP; [|assumption].
  destruct (noise_total (d_dc d) 1 7 G ltac:(lra)) as [n [c [l [fit [N _]]]]]. destruct (amax_some V) as [top T]; [rewrite EV; discriminate|].
  destruct (dc_with_if file cold_file full d (V, map (fun a => a * c) P, {| if_noise := n; if_corr := c; if_fit := fit; if_shot := (V, l); if_vmax := top * dc_vgap (d_dc d) |}) D) as [d' [D' [E1 E2]]].
  - unfold dcif_data, cold_file. rewrite L. cbn [bind if_options q_vshot full o_vshot]. rewrite EV in T |- *. rewrite NP, N. cbn [bind]. rewrite T. reflexivity.
  - exists d'. do 3 eexists. split; [exact D'|]. split; [exact E2|]. rewrite E1, G. split; [lra|]. split; [reflexivity|]. split; [discriminate|]. split; [cbn; lra|cbn; lia].
Qed.

(** The pumped I-V curve. *)
Lemma FV_lists (a b : list R) : map FV a = map FV b -> a = b.
Proof. revert b. induction a as [|x a IH]; intros [|y b] H; try discriminate; [reflexivity|]. cbn in H. injection H as -> H. f_equal. now apply IH. Qed.
Lemma iv_full dc : dc_vgap dc = 3 / 10 ^ 3 -> dc_igap dc = 3 / 10 ^ 4 -> dc_offset dc = (0, 0) -> exists V I,
  iv_curve savgol insertion_argsort (pumped_file J) dc (iv_options full) = Ok (V, I) /\ length V = 61%nat /\ length I = 61%nat /\
  forall k, (k < 61)%nat -> nth k V 0 = -2 + INR k / 15 /\ (2 / 3 <= nth k V 0 <= 29 / 30 -> nth k I 0 = (J 0%nat (3 / 2)) ^ 2) /\
    (29 / 30 <= nth k V 0 <= 5 / 3 -> nth k I 0 = 100 / 21 * nth k V 0 + ((J 0%nat (3 / 2)) ^ 2 - 100 / 21 * (29 / 30))).
Proof.
  intros G IG O. set (c := 3 / 10 * (J 0%nat (3 / 2)) ^ 2).
  assert (L : load_iv insertion_argsort (pumped_file J) "mV" "mA" = Ok (map FV (map (fun a => a * / 10 ^ 3) [2; 29 / 10; 5]), map FV (map (fun a => a * / 10 ^ 3) [c; c; c + 1]))).
  { rewrite !map_map. apply (load_rising insertion_argsort "mV" "mA" (/ 10 ^ 3) (/ 10 ^ 3)); try reflexivity; [exact insertion_sorts|cbn; lia|]. cbn [List.length]. intros j k JK K. destruct j as [|[|[|j]]], k as [|[|[|k]]]; try lia; cbn; lra. }
  assert (E : exists V I, iv_curve savgol insertion_argsort (pumped_file J) dc (iv_options full) = Ok (V, I)).
  { unfold iv_curve, loaded. cbn [iv_options p_v_fmt p_i_fmt p_voffset p_ioffset full o_v_fmt o_i_fmt o_voffset o_ioffset]. rewrite L. cbn [bind]. rewrite !reals_map. cbn [bind]. rewrite O. rewrite processed_plain by reflexivity. cbn [bind]. rewrite G, IG. rewrite !Reqb_f by lra. cbn [negb andb guard bind].
    unfold np_interp_zero, np_interp. cbn [List.length map Nat.eqb negb guard bind]. eexists. eexists. reflexivity. }
  destruct E as [V [I E]]. exists V, I. split; [assumption|].
  destruct (pumped_samples savgol insertion_argsort _ dc (iv_options full) V I 0 0 insertion_sorts E eq_refl eq_refl ltac:(cbn; lra) ltac:(lra)) as [v [i [L' S]]]; [right; split; [now left|assumption]|].
  change (p_v_fmt (iv_options full)) with "mV"%string in L'. change (p_i_fmt (iv_options full)) with "mA"%string in L'. rewrite L in L'. injection L' as L1 L2. 
  assert (EV : v = map (fun a => a * / 10 ^ 3) [2; 29 / 10; 5]) by (apply FV_lists; now symmetry). assert (EI : i = map (fun a => a * / 10 ^ 3) [c; c; c + 1]) by (apply FV_lists; now symmetry). subst v i. clear L1 L2.
  cbn [iv_options p_v_multiplier p_i_multiplier p_npts p_vmax full o_v_multiplier o_i_multiplier o_npts o_vmax map] in S. destruct S as [LV [LI S]]. split; [assumption|]. split; [assumption|]. intros k K.
  destruct (S k K) as [SV [_ [_ [_ SJ]]]]. rewrite G, IG in *. cbn [Nat.sub] in SV. replace (INR 60) with 60 in SV by (rewrite INR_IZR_INZ; reflexivity). set (t := nth k V 0) in *. set (y := nth k I 0) in *. clearbody t y.
  split; [lra|]. assert (c / 10 ^ 3 = (J 0%nat (3 / 2)) ^ 2 * (3 / 10 ^ 4)) by (unfold c; field). set (a := (J 0%nat (3 / 2)) ^ 2) in *. clearbody a c. split; intros T.
  - specialize (SJ 0%nat ltac:(cbn; lia) ltac:(cbn [nth]; lra)). cbn [nth] in SJ. lra.
  - specialize (SJ 1%nat ltac:(cbn; lia) ltac:(cbn [nth]; lra)). cbn [nth] in SJ. replace (5 * / 10 ^ 3 * 1 - 0 - (29 / 10 * / 10 ^ 3 * 1 - 0)) with (21 / 10 ^ 4) in SJ by field. unfold Rdiv in SJ at 1. lra.
Qed.

(** The IF analysis. *)
Definition if_volts : list R := [0; 1 / 3; 2 / 3; 1; 4 / 3; 5 / 3; 2].
Lemma near_list k : smallest (map (fun a => Rabs (a * (3 / 10 ^ 3) - 3 / 10 ^ 3)) if_volts) k -> k = 3%nat.
Proof.
  intros [K H]. cbn [if_volts map List.length] in *. specialize (H 3%nat ltac:(lia)). cbn [nth] in H. replace (Rabs (1 * (3 / 10 ^ 3) - 3 / 10 ^ 3)) with 0 in H by (rewrite Rabs_right by lra; ring).
  assert (Z : forall t, Rabs t <= 0 -> t = 0) by (intros t T; pose proof (Rabs_pos t); destruct (Req_dec t 0) as [|N]; [assumption|apply Rabs_pos_lt in N; lra]).
  destruct k as [|[|[|[|[|[|[|k]]]]]]]; try lia; cbn [nth] in H; apply Z in H; exfalso; lra.
Qed.
Lemma if_analysis dc : dc_vgap dc = 3 / 10 ^ 3 -> dc_offset dc = (0, 0) -> exists ph pc tn gain meta g,
  if_data savgol insertion_argsort hot_file cold_file dc None (if_options full) = Ok (if_volts, ph, pc, tn, gain, 3%nat, meta) /\ length tn = 7%nat /\ length gain = 7%nat /\ nth 3 gain FNaN = FV g /\ 0 < g.
Proof.
  intros G O. assert (GP : 0 < dc_vgap dc) by lra. rewrite if_data_eq by exact insertion_sorts.
  destruct (if_load dc 2 14 G O) as [V [H [LH [EV [LPH NH]]]]]. destruct (if_load dc 1 7 G O) as [V' [P [LC [EV' [LPC NC]]]]]. rewrite G, if_grid_list in EV, EV'. apply if_powers in NH; [|assumption]. apply if_powers in NC; [|assumption].
  unfold hot_file, cold_file. rewrite LH, LC. cbn [bind fst snd]. fold if_volts in EV, EV', NH, NC. subst V V'. unfold Proof_IFShot.calibration. cbn [if_options q_vshot full o_vshot].
  assert (AV : average H P = map (fun t => 3 / 2 + (21 / 2 - 3 / 2) * t / 2) if_volts) by (rewrite NH, NC; unfold average, if_volts; cbn [map zipwith]; do 7 (apply (f_equal2 (@cons R)); [field|]); reflexivity). rewrite AV.
  destruct (noise_total dc (3 / 2) (21 / 2) G ltac:(lra)) as [n [c [l [fit [N CP]]]]]. cbv zeta in N. fold if_volts in N. rewrite N. cbn [rmap bind].
  destruct (best_requested if_volts (map (fun a => a * c) H) (map (fun a => a * c) P) (dc_vgap dc) (if_options full) 230 eq_refl ltac:(lra) ltac:(cbn; lra) ltac:(cbn; lra) ltac:(rewrite map_length; exact LPH) ltac:(rewrite map_length; exact LPC) (3 / 10 ^ 3) eq_refl ltac:(discriminate)) as [tn [gain [idx [FT SM]]]].
  rewrite G in SM. apply near_list in SM. subst idx. rewrite FT. cbn [bind]. destruct (amax_some if_volts ltac:(discriminate)) as [top T]. rewrite T. cbn [bind].
  destruct (analysis_lists if_volts (map (fun a => a * c) H) (map (fun a => a * c) P) (dc_vgap dc) (if_options full) 230 eq_refl ltac:(lra) ltac:(cbn; lra) ltac:(cbn; lra) ltac:(rewrite map_length; exact LPH) ltac:(rewrite map_length; exact LPC) _ _ _ FT) as [ET EG].
  cbn [if_options q_t_hot q_t_cold full o_t_hot o_t_cold] in ET, EG. set (Th := callen_welton _ 293) in *. set (Tc := callen_welton _ 78) in *.
  assert (TT : Tc < Th) by (apply cw_rises; lra).
  do 6 eexists. split; [reflexivity|]. split; [rewrite ET, zip_combine, map_length, combine_length, !map_length, LPH, LPC; reflexivity|]. split; [rewrite EG, zip_combine, map_length, combine_length, !map_length, LPH, LPC; reflexivity|].
  rewrite EG, NH, NC. unfold if_volts. cbn [map zipwith nth]. unfold gain_at. cbn [fdiv]. rewrite Reqb_f by lra. split; [reflexivity|]. apply Rdiv_lt_0_compat; [|lra]. 
  match goal with |- 0 < ?a => replace a with (4 * c) by field end. lra.
Qed.
Lemma firstn_skipn_nth (l : list R) a n k : (k < n)%nat -> (a + n <= length l)%nat -> nth k (firstn n (skipn a l)) 0 = nth (a + k) l 0.
Proof.
  revert l k n. induction a as [|a IH]; intros l k n K L.
  - cbn [skipn]. rewrite <- (firstn_skipn n l) at 2. rewrite app_nth1; [reflexivity|]. rewrite firstn_length. lia.
  - destruct l as [|x l]; [cbn in L; lia|]. cbn [skipn Nat.add nth]. apply IH; [assumption|]. cbn [List.length] in L. lia.
Qed.
Lemma summary_full V I tn gain g rn : length V = 61%nat -> length I = 61%nat -> (forall k, (k < 61)%nat -> nth k V 0 = -2 + INR k / 15) ->
  (forall k, (k < 61)%nat -> 29 / 30 <= nth k V 0 <= 5 / 3 -> nth k I 0 = 100 / 21 * nth k V 0 + ((J 0%nat (3 / 2)) ^ 2 - 100 / 21 * (29 / 30))) ->
  length tn = 7%nat -> length gain = 7%nat -> nth 3 gain FNaN = FV g -> 0 < g -> exists s, if_summary V I if_volts tn gain 3 rn = Ok s.
Proof.
  intros LV LI EV EI LT LG EG GP. unfold if_summary. rewrite (pyget_nth tn (Z.of_nat 3) FNaN) by lia. cbn [bind]. rewrite (pyget_nth gain (Z.of_nat 3) FNaN) by lia. cbn [bind]. change (Z.of_nat 3 <? 0)%Z with false. cbv iota. change (Z.to_nat (Z.of_nat 3)) with 3%nat. rewrite EG. cbn [bind]. rewrite Rltb_t by assumption. cbn [guard bind].
  rewrite (pyget_nth if_volts (Z.of_nat 3) 0) by (cbn; lia). cbn [bind]. change (Z.of_nat 3 <? 0)%Z with false. cbv iota. change (Z.to_nat (Z.of_nat 3)) with 3%nat. cbn [if_volts nth].
  destruct (argmin_reals (map (fun a => Rabs (a - 1)) V)) as [k [EK [K S]]]; [destruct V; [discriminate|cbn; discriminate]|]. rewrite map_map in EK. rewrite EK. cbn [bind]. rewrite map_length, LV in *.
  assert (E45 : k = 45%nat).
  { specialize (S 45%nat ltac:(lia)). rewrite !(nth_map_in (fun a => Rabs (a - 1)) V _ 0 0) in S by lia. rewrite !EV in S by lia. replace (-2 + INR 45 / 15 - 1) with 0 in S by (rewrite (INR_IZR_INZ 45); cbn; field). rewrite Rabs_R0 in S.
    pose proof (Rabs_pos (-2 + INR k / 15 - 1)). assert (Z : -2 + INR k / 15 - 1 = 0) by (destruct (Req_dec (-2 + INR k / 15 - 1) 0) as [|N]; [assumption|apply Rabs_pos_lt in N; lra]).
    apply INR_eq. replace (INR 45) with 45 by (rewrite INR_IZR_INZ; reflexivity). lra. }
  subst k. rewrite !segment_firstn. replace (45 + 10 - 45)%nat with 10%nat by lia. set (X := firstn 10 (skipn 45 V)). set (Y := firstn 10 (skipn 45 I)).
  assert (LX : length X = 10%nat) by (unfold X; rewrite firstn_length, skipn_length; lia). assert (LY : length Y = 10%nat) by (unfold Y; rewrite firstn_length, skipn_length; lia).
  assert (NX : forall j, (j < 10)%nat -> nth j X 0 = 1 + INR j / 15).
  { intros j Hj. unfold X. rewrite firstn_skipn_nth by lia. rewrite EV by lia. rewrite plus_INR, (INR_IZR_INZ 45). change (IZR (Z.of_nat 45)) with 45. field. }
  assert (PF : polyfit1 X Y = Ok (100 / 21, (J 0%nat (3 / 2)) ^ 2 - 100 / 21 * (29 / 30))).
  { destruct (combine_unzip X Y ltac:(congruence)) as [E1 E2]. assert (PL : polyfit1 (map fst (List.combine X Y)) (map snd (List.combine X Y)) = Ok (100 / 21, (J 0%nat (3 / 2)) ^ 2 - 100 / 21 * (29 / 30))); [|now rewrite E1, E2 in PL]. apply polyfit_line.
    - exists (nth 0 X 0, nth 0 Y 0), (nth 1 X 0, nth 1 Y 0). rewrite <- !combine_nth by congruence. split; [apply nth_In; rewrite combine_length; lia|]. split; [apply nth_In; rewrite combine_length; lia|]. rewrite !combine_nth by congruence. cbn [fst]. rewrite !NX by lia. cbn. lra.
    - intros p Hp. apply (In_nth _ _ (0, 0)) in Hp. destruct Hp as [j [Hj <-]]. rewrite combine_length in Hj. rewrite combine_nth by congruence. cbn [fst snd]. assert (H10 : (j < 10)%nat) by lia.
      assert (B : 0 <= INR j <= 9). { split; [apply pos_INR|]. replace 9 with (INR 9) by (cbn; ring). apply le_INR. lia. }
      pose proof (NX j H10) as NJ. unfold X in NJ |- *. unfold Y. rewrite !firstn_skipn_nth in * by lia. apply EI; [lia|]. rewrite NJ. lra. }
  rewrite PF. cbn [bind fst]. rewrite quot_eq by lra. cbn [bind]. eexists. reflexivity.
Qed.

(** The recovery of the embedding impedance. *)
Lemma setup_ones v c k p f g h i : setup_interpolation ones dspline v c k p = Ok (f, g, h, i) -> (forall t, f t = 1) /\ (forall t, g t = 1).
Proof.
  unfold setup_interpolation. intros H. apply bind_ok in H. destruct H as [a [_ H]]. apply bind_ok in H. destruct H as [b [_ H]]. apply bind_ok in H. destruct H as [xd [_ H]]. apply bind_ok in H. destruct H as [yd [_ H]].
  apply bind_ok in H. destruct H as [[f1 f2] [E1 H]]. apply bind_ok in H. destruct H as [xk [_ H]]. apply bind_ok in H. destruct H as [yk [_ H]]. apply bind_ok in H. destruct H as [[g1 g2] [E2 H]].
  apply bind_ok in H. destruct H as [u [_ H]]. apply bind_ok in H. destruct H as [w [_ H]]. injection H as <- <- _ _.
  assert (I : forall x y z q r, Model_RespFn.interp ones dspline x y z = Ok (q, r) -> forall t, q t = 1).
  { intros x y z q r. unfold Model_RespFn.interp. intros H. repeat (apply bind_ok in H; destruct H as [? [_ H]]). injection H as <- _. reflexivity. }
  split; eapply I; eassumption.
Qed.
Lemma resp_ones m f o d : DC m f o = Ok d -> (forall v, idc (d_resp d) v = 1) /\ (forall v, ikk (d_resp d) v = 1).
Proof.
  intros D. destruct (dc_inv _ _ _ _ _ _ _ _ _ D) as [_ [_ [E _]]]. unfold respfn_from_iv in E. apply bind_ok in E. destruct E as [[v c] [_ E]]. apply init_inv in E. destruct E as [_ [_ [_ [_ [_ [_ [_ [f1 [f2 [E _]]]]]]]]]].
  apply setup_ones in E. exact E.
Qed.
Lemma pumped_ones idc vph a v : (forall t, idc t = 1) -> pumped_iv J idc vph a 0 v = (J 0%nat a) ^ 2.
Proof. intros H. unfold pumped_iv. change (zrange (- Z.of_nat 0) (Z.of_nat 0 + 1)) with [0%Z]. cbn [fold_left]. rewrite H. unfold besselZ. cbn [Z.ltb Z.compare]. change (Z.to_nat 0) with 0%nat. ring. Qed.
Lemma ac_ones idc ikk vph v : (forall t, idc t = 1) -> (forall t, ikk t = 1) -> ac_current J idc ikk vph (3 / 2) 0 v = (0, - (2 * J 0%nat (3 / 2) * J 1%nat (3 / 2))).
Proof.
  intros H K. unfold ac_current. change (zrange (- Z.of_nat 0) (Z.of_nat 0 + 1)) with [0%Z]. cbn [fold_left].
  assert (B0 : besselZ J 0 (3 / 2) = J 0%nat (3 / 2)) by reflexivity. assert (B1 : besselZ J (0 + 1) (3 / 2) = J 1%nat (3 / 2)) by reflexivity.
  assert (BM : besselZ J (0 - 1) (3 / 2) = - J 1%nat (3 / 2)) by (unfold besselZ; cbn [Z.sub Z.add Z.opp Z.ltb Z.compare]; change (Z.to_nat 1) with 1%nat; ring).
  rewrite B0, B1, BM, H, K. unfold RtoC, Ci, Cplus, Cmult; cbn [fst snd]; f_equal; ring.
Qed.
Lemma alpha_ones idc vph (B : list (R * R)) al : (forall t, idc t = 1) -> (forall p, In p B -> snd p = (J 0%nat (3 / 2)) ^ 2) ->
  find_alpha J idc (map fst B) (map snd B) vph (3 / 2) 0 = Ok al -> length al = length B /\ forall a, In a al -> a = 3 / 2.
Proof.
  intros H P E. destruct (alpha_nth J idc vph (3 / 2) 0 (map fst B) (map snd B) al ltac:(now rewrite !map_length) E) as [L N]. rewrite map_length in L, N. split; [assumption|]. intros a A. apply (In_nth _ _ 0) in A. destruct A as [k [K <-]]. rewrite L in K. destruct (N k K) as [_ ->].
  rewrite (nth_map_in snd B k 0 (0, 0)) by assumption. rewrite P by (now apply nth_In). set (v := nth k _ 0). assert (F : forall t, pumped_iv J idc vph t 0 v = (J 0%nat t) ^ 2) by (intros; now apply pumped_ones).
  replace (guess J idc vph (3 / 2) 0 v ((J 0%nat (3 / 2)) ^ 2)) with (3 / 2); [apply iter_fixed; [lra|apply F]|].
  unfold guess. rewrite F, H. replace (((J 0%nat (3 / 2)) ^ 2 - 1) / ((J 0%nat (3 / 2)) ^ 2 - 1) * (3 / 2)) with (3 / 2) by (field; lra). symmetry. apply Rmax_right. lra.
Qed.
Lemma vph_full : 3 / 10 < 230 * 10 ^ 9 / (sc_e * (3 / 10 ^ 3) / sc_h) < 33 / 100.
Proof. unfold sc_e, sc_h. split; [apply Rmult_lt_reg_r with (1 / 10 ^ 10)|]; lra. Qed.
Lemma full_case : exists d p n r al,
  DC file None full = Ok d /\ PUMPED (pumped_file J) d (Some hot_file) (Some cold_file) full = Ok p /\ 0 < dc_vgap (d_dc d) /\ d_if d = None /\ u_if p = Some n /\ u_recovered p = Some r /\
  let idc := idc (d_resp d) in let ikk := ikk (d_resp d) in let vph := 230 * 10 ^ 9 / dc_fgap (d_dc d) in
  let B := step_samples vph (25 / 100) (8 / 10) (u_voltage p) (u_current p) in
  find_alpha J idc (map fst B) (map snd B) vph (o_alpha_max full) (o_num_b full) = Ok al /\ B <> [] /\
  (forall p, In p (List.combine B al) -> ac_current J idc ikk vph (snd p) (o_num_b full) (fst (fst p)) <> RtoC 0) /\
  (forall i j, (i <= 100)%nat -> (j <= 200)%nat -> connectable (map (fun p => junction_sample J idc ikk vph (o_num_b full) (fst (fst p)) (snd p)) (List.combine B al)) (grid_point (o_remb_range full) (o_xemb_range full) i j)).
Proof.
  destruct dc_full as [d [D [RN [G [IG [O FG]]]]]]. destruct (resp_ones _ _ _ _ D) as [R1 R2]. destruct (dc_inv _ _ _ _ _ _ _ _ _ D) as [_ [_ [_ [_ DIF]]]].
  destruct (iv_full (d_dc d) G ltac:(rewrite IG; lra) O) as [V [I [IV [LV [LI S]]]]]. destruct (if_analysis (d_dc d) G O) as [ph [pc [tn [gain [meta [g [IF [LT [LG [EG GP]]]]]]]]]].
  destruct (summary_full V I tn gain g (dc_rn (d_dc d)) LV LI) as [su SU]; try assumption; [intros k K; now apply S|intros k K; now apply S|].
  set (vph := 230 * 10 ^ 9 / dc_fgap (d_dc d)). pose proof vph_full as VP. assert (VB : 3 / 10 < vph < 33 / 100) by (unfold vph; rewrite FG; exact VP). clear VP.
  assert (FP : dc_fgap (d_dc d) <> 0) by (rewrite FG; unfold sc_e, sc_h; lra).
  set (B := step_samples vph (25 / 100) (8 / 10) V I).
  assert (BS : forall p, In p B -> snd p = (J 0%nat (3 / 2)) ^ 2).
  { intros [t y] Hp. unfold B, step_samples in Hp. apply filter_In in Hp. destruct Hp as [Hp C]. apply (In_nth _ _ (0, 0)) in Hp. destruct Hp as [k [K EP]]. rewrite combine_length in K. rewrite combine_nth in EP by congruence. injection EP as ET EY. cbn [fst snd] in *.
    destruct (Rle_dec _ t) as [C1|]; [|discriminate]. destruct (Rle_dec t _) as [C2|]; [|discriminate]. rewrite <- EY. destruct (S k ltac:(lia)) as [_ [S2 _]]. apply S2. rewrite ET. lra. }
  assert (BN : B <> []).
  { intros E. assert (Hp : In (nth 42 V 0, nth 42 I 0) B); [|rewrite E in Hp; destruct Hp]. unfold B, step_samples. apply filter_In. split; [rewrite <- combine_nth by congruence; apply nth_In; rewrite combine_length; lia|]. cbn [fst].
    destruct (S 42%nat ltac:(lia)) as [-> _]. replace (INR 42) with 42 by (rewrite INR_IZR_INZ; reflexivity). destruct (Rle_dec _ _) as [|N]; [|exfalso; apply N; lra]. destruct (Rle_dec _ _) as [|N]; [reflexivity|exfalso; apply N; lra]. }
  assert (RU : range_used (rec_options full) (25 / 100) (8 / 10)) by (left; reflexivity).
  destruct (recover_total J (idc (d_resp d)) (ikk (d_resp d)) V I vph (rec_options full) (25 / 100) (8 / 10) ltac:(congruence) RU) as [r RR]; [exact BN|intros p _; cbn [rec_options r_alpha_max r_num_b full o_alpha_max o_num_b]; rewrite pumped_ones by assumption; rewrite R1; exact J2|].
  destruct (recover_middle J (idc (d_resp d)) (ikk (d_resp d)) V I vph (rec_options full) r (25 / 100) (8 / 10) ltac:(congruence) RU RR) as [al [_ [EA _]]]. fold B in EA. cbn [rec_options r_alpha_max r_num_b full o_alpha_max o_num_b] in EA.
  destruct (alpha_ones (idc (d_resp d)) vph B al R1 BS EA) as [LA AA].
  destruct (Proof_Slope.span_spec I V ltac:(congruence) 10 ltac:(lia) true ltac:(rewrite LI; lia)) as [rd [ER _]]. change (2 * Z.of_nat 10 + 1)%Z with 21%Z in ER.
  exists d. assert (PU : exists p n, PUMPED (pumped_file J) d (Some hot_file) (Some cold_file) full = Ok p /\ u_if p = Some n /\ u_recovered p = Some r /\ u_voltage p = V /\ u_current p = I).
  { unfold pumped_data. cbn [full o_freq bind]. rewrite !quot_eq by assumption. cbn [bind]. fold full. rewrite IV. cbn [bind]. rewrite ER. cbn [bind full o_analyze_iv o_analyze_if]. fold full. fold vph. rewrite RR. cbn [bind].
    unfold Model_Objects.calibration. rewrite DIF, IF. cbn [bind]. rewrite SU. cbn [bind]. eexists. eexists. split; [reflexivity|]. cbn. auto. }
  destruct PU as [p [n [PU [UI [UR [UV UC]]]]]]. exists p, n, r, al. split; [assumption|]. split; [assumption|]. split; [lra|]. split; [assumption|]. split; [assumption|]. split; [assumption|]. rewrite UV, UC. cbv zeta. fold vph B. cbn [full o_alpha_max o_num_b o_remb_range o_xemb_range].
  split; [assumption|]. split; [assumption|].
  assert (AC : forall p, In p (List.combine B al) -> ac_current J (idc (d_resp d)) (ikk (d_resp d)) vph (snd p) 0 (fst (fst p)) = (0, - (2 * J 0%nat (3 / 2) * J 1%nat (3 / 2)))).
  { intros [[t y] a] Hp. cbn [fst snd]. rewrite (AA a) by (now apply in_combine_r in Hp). now apply ac_ones. }
  assert (JJ : 2 * J 0%nat (3 / 2) * J 1%nat (3 / 2) <> 0) by (repeat apply Rmult_integral_contrapositive_currified; try assumption; lra).
  split; [intros q Q; rewrite AC by assumption; apply C_neq; right; cbn; lra|].
  assert (ZI : forall q, In q (List.combine B al) -> snd (junction_sample J (idc (d_resp d)) (ikk (d_resp d)) vph 0 (fst (fst q)) (snd q)) = (0, 3 / 2 * vph / (2 * J 0%nat (3 / 2) * J 1%nat (3 / 2)))).
  { intros q Q. unfold junction_sample. cbn [snd]. rewrite AC by assumption. destruct q as [[t y] a]. cbn [snd]. rewrite (AA a) by (now apply in_combine_r in Q). unfold Cdiv, Cinv, Cmult, RtoC. cbn [fst snd]. set (j := 2 * J 0%nat (3 / 2) * J 1%nat (3 / 2)) in *. f_equal; field; assumption. }
  intros i j Hi Hj. split.
  - intros q Q. apply in_map_iff in Q. destruct Q as [x [<- X]]. rewrite ZI by assumption. apply C_neq. left. unfold grid_point. cbn [fst snd Cplus RtoC]. pose proof (pos_INR i). lra.
  - destruct B as [|b0 B0]; [contradiction|]. destruct al as [|a0 al0]; [discriminate LA|]. eexists. split; [left; reflexivity|]. rewrite ZI by (left; reflexivity). apply C_neq. right. cbn [snd RtoC]. apply Rmult_integral_contrapositive_currified; [lra|now apply Rinv_neq_0_compat].
Qed.
End Case.
