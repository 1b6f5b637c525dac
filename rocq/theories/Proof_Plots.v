(** Proofs about the figures. *)
From Coq Require Import List ZArith Lia Bool Arith Reals Lra String.
From Coquelicot Require Import Complex.
From Verif Require Import Base Model_QtCurrent Spec_QtCurrent Float NumPy Spec_CleanData Proof_CleanData Model_CleanData Model_MathFn Spec_MathFn Spec_RespFn Model_RespFn Spec_IVData Model_IVData Spec_IFData Model_IFData
  Model_Tucker Model_ExpData Spec_ExpData Model_Objects Spec_Objects Spec_Objects2 Model_Misc Model_Print Model_Plots Spec_Plots Proof_Circuit Proof_NumPy Proof_IVModels Proof_IVLoad Proof_IVData Proof_IVCurve Proof_IFNoise Proof_IFLoad
  Proof_RespFn Proof_RespFn2 Proof_Filters Proof_IFShot Proof_IFCases Proof_Recover2 Proof_Objects Proof_Objects2 Proof_Objects3.
From Verif Require Import Model_Misc Model_Objects.
Import ListNotations.
Open Scope R_scope.
Local Notation length := List.length.
Local Notation rising := Spec_RespFn.increasing.

(** ** Curves *)
Lemma curve_eq l x y c : curve l x y = Ok c -> c = Curve l x y /\ length x = length y.
Proof. unfold curve. destruct (Nat.eqb_spec (length x) (length y)); cbn [guard bind]; intros H; [|discriminate]. injection H as <-. auto. Qed.
Lemma curve_ok l x y : length x = length y -> curve l x y = Ok (Curve l x y).
Proof. unfold curve. intros ->. now rewrite Nat.eqb_refl. Qed.
Lemma unzip_l {A B} (x : list A) (y : list B) : length x = length y -> map fst (List.combine x y) = x.
Proof. revert y. induction x as [|a x IH]; intros [|b y] H; cbn in *; try discriminate; [reflexivity|]. f_equal. apply IH. now injection H. Qed.
Lemma unzip_r {A B} (x : list A) (y : list B) : length x = length y -> map snd (List.combine x y) = y.
Proof. revert y. induction x as [|a x IH]; intros [|b y] H; cbn in *; try discriminate; [reflexivity|]. f_equal. apply IH. now injection H. Qed.
(** Scaling both axes. *)
Lemma map_rising x g : 0 < g -> rising x -> rising (map (fun a => a * g) x).
Proof. intros G I i j IJ J. rewrite map_length in J. rewrite !(nth_map_in _ _ _ _ 0) by lia. apply Rmult_lt_compat_r; [assumption|]. now apply I. Qed.
Lemma on_curve_scaled x y g c t r : (1 <= length x)%nat -> length y = length x -> rising x -> 0 < g -> on_curve x y t r -> on_curve (map (fun a => a * g) x) (map (fun a => a * c) y) (t * g) (r * c).
Proof.
  intros H L I G [A [B [C D]]]. unfold on_curve, joined. rewrite !map_length. rewrite !(nth_map_in _ x _ _ 0) by lia. rewrite !(nth_map_in _ y _ _ 0) by lia.
  split; [intros T; rewrite A; [reflexivity|nra]|]. split; [intros T; rewrite B; [reflexivity|nra]|]. split.
  - intros j J T. rewrite (nth_map_in _ x _ _ 0) in T by lia. rewrite (nth_map_in _ y _ _ 0) by lia. rewrite (C j J); [reflexivity|]. apply Rmult_eq_reg_r with g; lra.
  - intros j J T. rewrite !(nth_map_in _ x _ _ 0) in * by lia. rewrite !(nth_map_in _ y _ _ 0) by lia. rewrite (D j J); [|nra]. specialize (I j (S j) ltac:(lia) J). field. split; nra.
Qed.
Lemma interp1 x y t r : np_interp [t] x y = Ok r -> r = [np_interp1 x y t] /\ (1 <= length x)%nat /\ length y = length x.
Proof.
  unfold np_interp. intros H. destruct (guard _ _) as [[]|] eqn:G1 in H; [|discriminate]. cbn [bind] in H. destruct (guard _ _) as [[]|] eqn:G2 in H; [|discriminate]. cbn [bind map] in H.
  injection H as <-. split; [reflexivity|]. destruct (Nat.eqb_spec (length x) 0) in *; destruct (Nat.eqb_spec (length x) (length y)) in *; cbn in *; try discriminate; split; try lia; congruence.
Qed.
Lemma select_within {A B} (f : A -> bool) (x : list A) (y : list B) : length x = length y ->
  select (map f x) x = Ok (map fst (filter (fun p => f (fst p)) (List.combine x y))) /\ select (map f x) y = Ok (map snd (filter (fun p => f (fst p)) (List.combine x y))).
Proof.
  intros L. pose proof (unzip_l x y L) as E1. pose proof (unzip_r x y L) as E2. set (P := List.combine x y) in *. rewrite <- E1 at 1 2. rewrite <- E2 at 1. rewrite <- E1 at 1. rewrite map_map. split; apply select_map.
Qed.
Lemma within_eq (u : R) lo hi lo' hi' (P : list (R * R)) : 0 < u -> lo' = lo * u -> hi' = hi * u ->
  filter (fun p => (Rltb lo (fst p / u) && Rltb (fst p / u) hi)%bool) P = filter (fun p => if Rlt_dec lo' (fst p) then if Rlt_dec (fst p) hi' then true else false else false) P.
Proof.
  intros U -> ->. apply filter_ext. intros [a b]. cbn [fst].
  assert (Q1 : lo < a / u <-> lo * u < a). { split; intros H; [apply Rmult_lt_compat_r with (r := u) in H; [|assumption]; replace (a / u * u) with a in H by (field; lra); assumption|apply Rmult_lt_reg_r with u; [assumption|]; replace (a / u * u) with a by (field; lra); assumption]. }
  assert (Q2 : a / u < hi <-> a < hi * u). { split; intros H; [apply Rmult_lt_compat_r with (r := u) in H; [|assumption]; replace (a / u * u) with a in H by (field; lra); assumption|apply Rmult_lt_reg_r with u; [assumption|]; replace (a / u * u) with a by (field; lra); assumption]. }
  destruct (Rlt_dec (lo * u) a) as [A|A]; [rewrite Rltb_t by tauto|rewrite Rltb_f; [reflexivity|]; apply Rnot_lt_le; tauto]. destruct (Rlt_dec a (hi * u)) as [B|B]; [rewrite Rltb_t by tauto; reflexivity|rewrite Rltb_f; [reflexivity|]; apply Rnot_lt_le; tauto].
Qed.

Section DC.
Variable argsort : list fl -> list nat.
Variable minimize : (R * R -> R) -> R * R -> R * R.
Variable savgol : list R -> Z -> Z -> list R.
Variable spline dspline : list R -> list R -> Z -> R -> R.
Local Notation DC := (dc_data argsort minimize savgol spline dspline).
Lemma dc_igap_eq m f o d : DC m f o = Ok d -> dc_rn (d_dc d) <> 0 /\ dc_igap (d_dc d) = dc_vgap (d_dc d) / dc_rn (d_dc d).
Proof.
  intros D. destruct (dc_inv _ _ _ _ _ _ _ _ _ D) as [A _]. unfold dciv_curve in A. apply bind_ok in A. destruct A as [[v i] [_ A]]. apply bind_ok in A. destruct A as [[[v1 i1] off] [_ A]]. apply bind_ok in A. destruct A as [[[vr ir] [v2 i2]] [_ A]].
  apply bind_ok in A. destruct A as [g [_ A]]. apply bind_ok in A. destruct A as [[rn vint] [_ A]]. apply bind_ok in A. destruct A as [rsg [_ A]]. apply bind_ok in A. destruct A as [ig [Q A]]. apply bind_ok in A. destruct A as [u [_ A]]. apply bind_ok in A. destruct A as [c [_ A]].
  apply ok_inj in A. apply (f_equal snd) in A. cbn [snd] in A. rewrite <- A. cbn [dc_rn dc_igap dc_vgap]. unfold quot in Q. destruct (Reqb_spec rn 0); [discriminate|]. injection Q as <-. auto.
Qed.
Lemma dciv_figure m f o d vmax a : DC m f o = Ok d -> 0 < dc_vgap (d_dc d) -> 0 < o_vmax o -> (2 <= o_npts o)%nat -> plot_dciv d (o_vleak o) vmax = Ok a ->
  let dc := d_dc d in let V := millivolts dc (d_voltage d) in let I := microamps dc (d_current d) in
  exists gap leak s b k,
    shows a [("DC I-V"%string, List.combine V (map FV I));
             mark ("$V_\mathrm{{gap}}$ = " ++ fixed false 0 2 (dc_vgap dc * 10 ^ 3) ++ " mV")%string (dc_vgap dc * 10 ^ 3) (FV gap);
             mark ("$I_\mathrm{{leak}}$ = " ++ fixed false 0 2 leak ++ " $\mu$A")%string 2 (FV leak);
             ("$R_\mathrm{{n}}$ = " ++ fixed false 0 2 (dc_rn dc) ++ " $\Omega$", map (fun x => (x, FV ((x - dc_vint dc * 10 ^ 3) / dc_rn dc * 10 ^ 3))) V)%string;
             ("$R_\mathrm{{sg}}$ = " ++ fixed false 0 1 (dc_rsg dc) ++ " $\Omega$", map (fun x => (x, FV (s * x + b))) V)%string] [] /\
    on_curve V I (dc_vgap dc * 10 ^ 3) gap /\ on_curve V I (o_vleak o * 10 ^ 3) leak /\
    best_line (samples_within (o_vleak o * 10 ^ 3 - 2 / 10) (o_vleak o * 10 ^ 3 + 2 / 10) V I) s b /\
    (k < length V)%nat /\ (forall j, (j < length V)%nat -> Rabs (vmax - nth k V 0) <= Rabs (vmax - nth j V 0)) /\
    g_xlabel a = "Bias Voltage (mV)"%string /\ g_ylabel a = "Current ($\mu$A)"%string /\
    g_xlim a = (Some 0, Some (nth k V 0)) /\ g_ylim a = (Some 0, Some (nth k I 0)).
Proof.
  intros D G M N H dc V I. destruct (dc_igap_eq m f o d D) as [RN IG]. destruct (dc_grid_rising argsort minimize savgol spline dspline m f o d D G M N) as [RV LV].
  fold dc in RN, IG, G. unfold plot_dciv in H. fold dc in H. rewrite !quot_eq in H by lra. cbn [bind] in H. rewrite <- IG in H.
  change (in_units (d_voltage d) (dc_vgap dc * 10 ^ 3)) with V in H. change (in_units (d_current d) (dc_igap dc * 10 ^ 6)) with I in H.
  assert (LVI : length V = length I) by (unfold V, I, millivolts, microamps; rewrite !map_length; congruence).
  apply bind_ok in H. destruct H as [g [E1 H]]. apply interp1 in E1. destruct E1 as [-> [L1 _]]. 
  apply bind_ok in H. destruct H as [l [E2 H]]. apply interp1 in E2. destruct E2 as [-> _]. cbn [nth] in H.
  set (ws := filter (fun p => (Rltb (o_vleak o - 2 / 10 ^ 4) (fst p / 1000) && Rltb (fst p / 1000) (o_vleak o + 2 / 10 ^ 4))%bool) (List.combine V I)) in *.
  rewrite map_map in H. destruct (select_within (fun a => (Rltb (o_vleak o - 2 / 10 ^ 4) (a / 1000) && Rltb (a / 1000) (o_vleak o + 2 / 10 ^ 4))%bool) V I LVI) as [S1 S2]. cbn beta in S1, S2. rewrite S1, S2 in H. cbn [bind] in H.
  apply bind_ok in H. destruct H as [[s b] [PF H]]. apply polyfit_best in PF. destruct PF as [_ BL]. cbn [fst snd] in H.
  apply bind_ok in H. destruct H as [c1 [C1 H]]. apply curve_eq in C1. destruct C1 as [-> _]. apply bind_ok in H. destruct H as [c2 [C2 H]]. apply curve_eq in C2. destruct C2 as [-> _].
  apply bind_ok in H. destruct H as [c3 [C3 H]]. apply curve_eq in C3. destruct C3 as [-> _]. apply bind_ok in H. destruct H as [c4 [C4 H]]. apply curve_eq in C4. destruct C4 as [-> _].
  apply bind_ok in H. destruct H as [c5 [C5 H]]. apply curve_eq in C5. destruct C5 as [-> _]. apply bind_ok in H. destruct H as [k [K H]].
  assert (NV : V <> []) by (unfold V, millivolts; destruct (d_voltage d); [cbn in L1; lia|discriminate]).
  destruct (argmin_reals (map (fun a => Rabs (vmax - a)) V)) as [k' [EK [K1 K2]]]; [destruct V; [contradiction|discriminate]|]. rewrite map_map in EK. rewrite EK in K. injection K as <-. rewrite map_length in K1, K2.
  rewrite (pyget_nth V _ 0) in H by lia. rewrite (pyget_nth I _ 0) in H by lia. cbn [bind] in H. replace (Z.of_nat k' <? 0)%Z with false in H by (symmetry; apply Z.ltb_ge; lia). rewrite Nat2Z.id in H.
  apply ok_inj in H. subst a. exists (np_interp1 (d_voltage d) (d_current d) 1 * (dc_igap dc * 10 ^ 6)), (np_interp1 (d_voltage d) (d_current d) (o_vleak o / dc_vgap dc) * (dc_igap dc * 10 ^ 6)), s, b, k'.
  split; [|split; [|split; [|split; [|split; [assumption|split; [|auto]]]]]].
  - unfold shows. cbn [g_items map fst snd mark app in_units Model_Plots.numbers]. rewrite unzip_l, unzip_r by (rewrite map_length; assumption). rewrite !map_map. cbn [fst snd]. rewrite map_id.
    do 3 (apply (f_equal2 (@cons item)); [reflexivity|]). apply (f_equal2 (@cons item)); [|apply (f_equal2 (@cons item)); [unfold Model_Plots.numbers; rewrite map_map; reflexivity|reflexivity]].
    apply f_equal. unfold Model_Plots.numbers, V, millivolts. rewrite !map_map. apply map_ext. intros v. f_equal. rewrite IG. field. assumption.
  - replace (dc_vgap dc * 10 ^ 3) with (1 * (dc_vgap dc * 10 ^ 3)) by ring. apply on_curve_scaled; try assumption; [lra|]. apply interp_joined; [assumption|congruence|assumption].
  - replace (o_vleak o * 10 ^ 3) with (o_vleak o / dc_vgap dc * (dc_vgap dc * 10 ^ 3)) by (field; lra). apply on_curve_scaled; try assumption; [lra|]. apply interp_joined; [assumption|congruence|assumption].
  - replace (samples_within (o_vleak o * 10 ^ 3 - 2 / 10) (o_vleak o * 10 ^ 3 + 2 / 10) V I) with ws; [assumption|]. unfold ws, samples_within. apply within_eq; lra.
  - intros j J. specialize (K2 j J). rewrite !(nth_map_in _ V _ _ 0) in K2 by assumption. exact K2.
Qed.
(** The samples near zero voltage. *)
Lemma offset_figure m f o d a : DC m f o = Ok d -> 0 < dc_vgap (d_dc d) -> plot_offset d = Ok a ->
  let V := millivolts (d_dc d) (d_voltage d) in let I := microamps (d_dc d) (d_current d) in
  shows a [(""%string, map (fun p => (fst p, FV (snd p))) (samples_within (- (2 / 10)) (2 / 10) V I))] [] /\ g_xlabel a = "Bias Voltage (mV)"%string /\ g_ylabel a = "Current ($\mu$A)"%string /\ g_xlim a = (Some (- (2 / 10)), Some (2 / 10)).
Proof.
  intros D G H V I. destruct (dc_igap_eq m f o d D) as [RN IG]. destruct (dc_inv _ _ _ _ _ _ _ _ _ D) as [A _]. destruct (dciv_vgap _ _ _ _ _ _ _ _ A) as [_ [_ [_ LV]]].
  unfold plot_offset in H. rewrite !quot_eq in H by lra. cbn [bind] in H. rewrite <- IG in H.
  change (in_units (d_voltage d) (dc_vgap (d_dc d) * 10 ^ 3)) with V in H. change (in_units (d_current d) (dc_igap (d_dc d) * 10 ^ 6)) with I in H.
  assert (LVI : length V = length I) by (unfold V, I, millivolts, microamps; rewrite !map_length; congruence).
  destruct (select_within (fun a => (Rltb (- (2 / 10)) a && Rltb a (2 / 10))%bool) V I LVI) as [S1 S2]. rewrite S1, S2 in H. cbn [bind] in H. apply bind_ok in H. destruct H as [c [C H]]. apply curve_eq in C. destruct C as [-> _]. apply ok_inj in H. subst a.
  split; [|auto]. unfold shows. cbn [g_items map fst snd app]. rewrite !map_map. cbn [fst snd]. unfold Model_Plots.numbers. rewrite map_map.
  assert (E : samples_within (- (2 / 10)) (2 / 10) V I = filter (fun p => (Rltb (- (2 / 10)) (fst p) && Rltb (fst p) (2 / 10))%bool) (List.combine V I)).
  { symmetry. unfold samples_within. rewrite <- (within_eq 1 (- (2 / 10)) (2 / 10)) by lra. apply filter_ext. intros p. replace (fst p / 1) with (fst p) by field. reflexivity. }
  rewrite E. reflexivity.
Qed.
(** Both always succeed (with enough samples for the fit). *)
Lemma polyfit_total P : spread P -> exists a b, polyfit1 (map fst P) (map snd P) = Ok (a, b).
Proof.
  intros S. pose proof (det_pos P S) as DP. destruct S as [p [q [Hp _]]]. rewrite polyfit_eq by (intros ->; destruct Hp). cbv zeta. rewrite Reqb_f by lra. eexists. eexists. reflexivity.
Qed.
Lemma dciv_total m f o d vmax : DC m f o = Ok d -> 0 < dc_vgap (d_dc d) -> 0 < o_vmax o -> (2 <= o_npts o)%nat ->
  spread (samples_within (o_vleak o * 10 ^ 3 - 2 / 10) (o_vleak o * 10 ^ 3 + 2 / 10) (millivolts (d_dc d) (d_voltage d)) (microamps (d_dc d) (d_current d))) ->
  exists a, plot_dciv d (o_vleak o) vmax = Ok a.
Proof.
  intros D G M N S. set (dc := d_dc d) in *. set (V := millivolts dc (d_voltage d)) in *. set (I := microamps dc (d_current d)) in *.
  destruct (dc_igap_eq m f o d D) as [RN IG]. destruct (dc_grid_rising argsort minimize savgol spline dspline m f o d D G M N) as [RV LV].
  fold dc in RN, IG. unfold plot_dciv. fold dc. rewrite !quot_eq by lra. cbn [bind]. rewrite <- IG.
  change (in_units (d_voltage d) (dc_vgap dc * 10 ^ 3)) with V. change (in_units (d_current d) (dc_igap dc * 10 ^ 6)) with I.
  assert (LVI : length V = length I) by (unfold V, I, millivolts, microamps; rewrite !map_length; congruence).
  assert (L1 : (2 <= length (d_voltage d))%nat). { destruct (dc_inv _ _ _ _ _ _ _ _ _ D) as [A _]. destruct (dciv_vgap _ _ _ _ _ _ _ _ A) as [_ [_ [E _]]]. rewrite E, map_length, linspace_length. exact N. }
  assert (NP : forall t, np_interp [t] (d_voltage d) (d_current d) = Ok [np_interp1 (d_voltage d) (d_current d) t]).
  { intros t. unfold np_interp. destruct (Nat.eqb_spec (length (d_voltage d)) 0); [lia|]. rewrite LV, Nat.eqb_refl. reflexivity. }
  rewrite !NP. cbn [bind nth]. rewrite map_map. destruct (select_within (fun a => (Rltb (o_vleak o - 2 / 10 ^ 4) (a / 1000) && Rltb (a / 1000) (o_vleak o + 2 / 10 ^ 4))%bool) V I LVI) as [S1 S2]. cbn beta in S1, S2. rewrite S1, S2. cbn [bind].
  assert (E : samples_within (o_vleak o * 10 ^ 3 - 2 / 10) (o_vleak o * 10 ^ 3 + 2 / 10) V I = filter (fun p => (Rltb (o_vleak o - 2 / 10 ^ 4) (fst p / 1000) && Rltb (fst p / 1000) (o_vleak o + 2 / 10 ^ 4))%bool) (List.combine V I)).
  { symmetry. unfold samples_within. apply within_eq; lra. }
  rewrite E in S. destruct (polyfit_total _ S) as [s [b ->]]. cbn [bind fst snd].
  rewrite !curve_ok by (unfold Model_Plots.numbers, in_units, V, millivolts, I, microamps; rewrite ?map_length; try reflexivity; congruence). cbn [bind].
  destruct (argmin_reals (map (fun a => Rabs (vmax - a)) V)) as [k [EK [K1 _]]]; [unfold V, millivolts; destruct (d_voltage d); [cbn in L1; lia|discriminate]|]. rewrite map_map in EK. rewrite EK. cbn [bind]. rewrite map_length in K1.
  rewrite (pyget_nth V _ 0) by lia. rewrite (pyget_nth I _ 0) by lia. cbn [bind]. eexists. reflexivity.
Qed.
(** The two axes of the IF noise. *)
Lemma noise_figure m f o d r : DC m f o = Ok d -> 0 < dc_vgap (d_dc d) -> plot_if_noise d = Ok r ->
  match f with
  | None => r = None
  | Some _ => exists a b v q c, r = Some (a, b) /\ d_if d = Some (v, q, c) /\
      let dc := d_dc d in let V := millivolts dc (d_voltage d) in let I := microamps dc (d_current d) in
      shows a [("I-V curve"%string, List.combine V (map FV I)); ("Normal-state"%string, map (fun x => (x, FV ((x - dc_vint dc * 10 ^ 3) / dc_rn dc * 10 ^ 3))) V)] [Vertical (dc_vint dc * 10 ^ 3)] /\
      shows b [("IF Power"%string, List.combine (millivolts dc v) (map FV q)); ("5.8 K/mV"%string, List.combine (millivolts dc (fst (if_shot c))) (map FV (snd (if_shot c))));
               mark ("IF noise: " ++ fixed false 0 2 (if_noise c) ++ " K")%string (dc_vint dc * 10 ^ 3) (FV (if_noise c))] [Vertical (dc_vint dc * 10 ^ 3)] /\
      g_ylabel a = "Current ($\mu$A)"%string /\ g_xlabel b = "Bias Voltage (mV)"%string /\ g_ylabel b = "IF Power (K)"%string
  end.
Proof.
  intros D G H. destruct (dc_igap_eq m f o d D) as [RN IG]. destruct (dc_inv _ _ _ _ _ _ _ _ _ D) as [A [_ [_ [_ F]]]]. destruct (dciv_vgap _ _ _ _ _ _ _ _ A) as [_ [_ [_ LV]]]. unfold plot_if_noise in H.
  destruct f as [mf|]; [|rewrite F in H; now apply ok_inj in H]. destruct F as [[[v q] c] [_ F]]. rewrite F in H. set (dc := d_dc d) in *.
  rewrite !quot_eq in H by assumption. cbn [bind] in H. change (in_units (d_voltage d) (dc_vgap dc * 10 ^ 3)) with (millivolts dc (d_voltage d)) in H. change (in_units (d_current d) (dc_igap dc * 10 ^ 6)) with (microamps dc (d_current d)) in H. change (in_units v (dc_vgap dc * 10 ^ 3)) with (millivolts dc v) in H.
  apply bind_ok in H. destruct H as [c1 [C1 H]]. apply curve_eq in C1. destruct C1 as [-> Q1]. apply bind_ok in H. destruct H as [c2 [C2 H]]. apply curve_eq in C2. destruct C2 as [-> _].
  apply bind_ok in H. destruct H as [c3 [C3 H]]. apply curve_eq in C3. destruct C3 as [-> Q3]. apply bind_ok in H. destruct H as [c4 [C4 H]]. apply curve_eq in C4. destruct C4 as [-> Q4].
  apply bind_ok in H. destruct H as [c5 [C5 H]]. apply curve_eq in C5. destruct C5 as [-> _]. apply bind_ok in H. destruct H as [top [_ H]]. apply ok_inj in H. subst r.
  assert (EV : map (fun a => a * dc_vgap dc * 10 ^ 3) (fst (if_shot c)) = millivolts dc (fst (if_shot c))) by (apply map_ext; intros; ring). rewrite EV in *.
  eexists. eexists. exists v, q, c. split; [reflexivity|]. split; [exact F|]. unfold shows. cbn [g_items g_xlabel g_ylabel map fst snd mark app]. unfold Model_Plots.numbers in *. rewrite !unzip_l, !unzip_r by assumption. rewrite !map_map. cbn [fst snd]. rewrite map_id.
  split; [|auto]. apply (f_equal2 (@cons item)); [reflexivity|]. apply (f_equal2 (@cons item)); [|reflexivity]. f_equal. unfold millivolts. rewrite !map_map. apply map_ext. intros x. f_equal. field. assumption.
Qed.
End DC.

(** ** Pumped data *)
Lemma mask_select {A} h (l : list A) : length h = length l -> select (nonzero_mask h) l = Ok (where_nonzero h l).
Proof.
  intros L. unfold select, nonzero_mask, where_nonzero. rewrite map_length, L, Nat.eqb_refl. f_equal. revert l L. induction h as [|a h IH]; intros [|b l] L; cbn in L; try discriminate; [reflexivity|]. cbn [map List.combine filter fst]. injection L as L. specialize (IH l L).
  destruct (Req_EM_T a 0) as [E|E]; destruct (Reqb_spec a 0) as [E'|E']; try contradiction; cbn [negb fst map snd]; rewrite ?IH; reflexivity.
Qed.
Lemma mask_mismatch {A} h (l : list A) x : select (nonzero_mask h) l = Ok x -> x = where_nonzero h l.
Proof. intros H. assert (L : length h = length l). { unfold select, nonzero_mask in H. rewrite map_length in H. destruct (Nat.eqb_spec (length h) (length l)); [assumption|discriminate]. } rewrite mask_select in H by assumption. now injection H. Qed.
Lemma where_length {A B} h (l : list A) (l' : list B) : length l = length l' -> length (where_nonzero h l) = length (where_nonzero h l').
Proof.
  unfold where_nonzero. rewrite !map_length. revert l l'. induction h as [|a h IH]; intros [|b l] [|b' l'] L; cbn in L; try discriminate; try reflexivity. injection L as L. cbn [List.combine filter fst]. destruct (Req_EM_T a 0); cbn [List.length]; auto.
Qed.
Lemma where_map {A B} (f : A -> B) h (l : list A) : where_nonzero h (map f l) = map f (where_nonzero h l).
Proof. unfold where_nonzero. revert l. induction h as [|a h IH]; intros [|b l]; try reflexivity. cbn [map List.combine filter fst]. destruct (Req_EM_T a 0); cbn [map snd]; rewrite ?IH; reflexivity. Qed.
Lemma where_in {A} h (l : list A) k d : (k < length h)%nat -> length l = length h -> nth k h 0 <> 0 -> In (nth k l d) (where_nonzero h l).
Proof.
  intros K L N. unfold where_nonzero. apply in_map_iff. exists (nth k h 0, nth k l d). split; [reflexivity|]. apply filter_In. split; [rewrite <- combine_nth by congruence; apply nth_In; rewrite combine_length; lia|]. cbn [fst]. destruct (Req_EM_T _ 0); [contradiction|reflexivity].
Qed.
Lemma combine_where {A B} h (l : list A) (l' : list B) : length l = length l' -> List.combine (where_nonzero h l) (where_nonzero h l') = where_nonzero h (List.combine l l').
Proof. unfold where_nonzero. revert l l'. induction h as [|a h IH]; intros [|b l] [|b' l'] L; cbn in L; try discriminate; try reflexivity. injection L as L. cbn [List.combine filter fst]. destruct (Req_EM_T a 0); cbn [map snd List.combine]; rewrite ?IH by assumption; reflexivity. Qed.

Section Pumped.
Variable argsort : list fl -> list nat.
Variable minimize : (R * R -> R) -> R * R -> R * R.
Variable savgol : list R -> Z -> Z -> list R.
Variable J : nat -> R -> R.
Variable spline dspline : list R -> list R -> Z -> R -> R.
Local Notation DC := (dc_data argsort minimize savgol spline dspline).
Local Notation PUMPED := (pumped_data argsort savgol J).
Variables (m0 : matrix) (f0 : option matrix) (o0 : options) (d : dcdata).
Hypothesis HD : DC m0 f0 o0 = Ok d.
Hypothesis HG : 0 < dc_vgap (d_dc d).
Hypothesis HM : 0 < o_vmax o0.
Hypothesis HN : (2 <= o_npts o0)%nat.
Variables (m : matrix) (hot cold : option matrix) (o : options) (u : pumpeddata) (f : R).
Hypothesis HP : PUMPED m d hot cold o = Ok u.
Hypothesis HF : o_freq o = Some f.
Local Notation dc := (d_dc d).
Local Notation V0 := (millivolts dc (d_voltage d)).
Local Notation I0 := (microamps dc (d_current d)).

Local Notation curves_uA := (pumped_curves d u).
Local Notation lines_mV := (step_lines dc f).
Lemma iv_lengths : length (u_current u) = length (u_voltage u) /\ length (d_current d) = length (d_voltage d) /\ (2 <= length (d_voltage d))%nat /\ rising (d_voltage d).
Proof.
  destruct (pumped_inv _ _ _ _ _ _ _ _ _ HP) as [f' [_ [_ [_ [_ [A _]]]]]]. destruct (iv_grid _ _ _ _ _ _ _ A) as [_ L]. destruct (dc_grid_rising argsort minimize savgol spline dspline m0 f0 o0 d HD HG HM HN) as [RV LV]. split; [assumption|]. split; [assumption|]. split; [|assumption].
  destruct (dc_inv _ _ _ _ _ _ _ _ _ HD) as [B _]. destruct (dciv_vgap _ _ _ _ _ _ _ _ B) as [_ [_ [E _]]]. rewrite E, map_length, linspace_length. exact HN.
Qed.
Lemma drawn_iv : exists items, draw_iv d u (dc_vgap dc * 10 ^ 3) (dc_igap dc * 10 ^ 6) = Ok items /\ forall a, g_items a = items -> shows a curves_uA lines_mV.
Proof.
  destruct iv_lengths as [L1 [L2 _]]. unfold draw_iv. rewrite curve_ok by (unfold in_units, Model_Plots.numbers; rewrite !map_length; congruence). cbn [bind]. rewrite !mask_select by congruence. cbn [bind].
  rewrite curve_ok by (unfold in_units, Model_Plots.numbers; rewrite !map_length; apply where_length; congruence). cbn [bind]. eexists. split; [reflexivity|]. intros a EA. unfold shows. rewrite EA. unfold pumped_curves, step_lines. cbn [map fst snd app].
  rewrite unzip_l, unzip_r by (unfold millivolts, microamps; rewrite !map_length; congruence). apply (f_equal2 (@cons item)); [reflexivity|]. apply (f_equal2 (@cons item)).
  - rewrite <- combine_where by (unfold millivolts, microamps; rewrite !map_length; congruence). rewrite unzip_l, unzip_r by (apply where_length; unfold millivolts, microamps; rewrite !map_length; congruence).
    unfold millivolts, microamps. rewrite !where_map. reflexivity.
  - pose proof (photon_voltage argsort minimize savgol J spline dspline _ _ _ _ _ _ _ _ _ _ HD HP HF) as PV. apply (f_equal2 (@cons item)); [reflexivity|]. apply (f_equal2 (@cons item)); [|reflexivity]. f_equal.
    replace (planck * (f * 10 ^ 9)) with (elementary_charge * (u_vph u * dc_vgap dc)) by exact PV. assert (elementary_charge <> 0) by (unfold elementary_charge; lra). field. assumption.
Qed.
Lemma top_limit t : exists c, np_interp [t] V0 I0 = Ok [c] /\ on_curve V0 I0 t c.
Proof.
  destruct iv_lengths as [_ [L2 [L3 RV]]]. exists (np_interp1 V0 I0 t). assert (RV' : rising V0) by (apply map_rising; [lra|assumption]). assert (LV : length I0 = length V0) by (unfold millivolts, microamps; rewrite !map_length; assumption). assert (LN : (2 <= length V0)%nat) by (unfold millivolts; rewrite map_length; assumption).
  split; [|apply interp_joined; [assumption|assumption|lia]]. unfold np_interp. destruct (Nat.eqb_spec (length V0) 0); [lia|]. rewrite LV, Nat.eqb_refl. reflexivity.
Qed.
Lemma title_eq : lo_title u = lo_legend f.
Proof. unfold lo_title, lo_legend. destruct (pumped_inv _ _ _ _ _ _ _ _ _ HP) as [f' [E [-> _]]]. rewrite HF in E. now injection E as <-. Qed.
(** The pumped I-V curve. *)
Lemma iv_figure vmax : exists a top, plot_iv d u vmax = Ok a /\ shows a curves_uA lines_mV /\ on_curve V0 I0 vmax top /\
  g_xlim a = (Some 0, Some vmax) /\ g_ylim a = (Some 0, Some top) /\ g_xlabel a = "Bias Voltage (mV)"%string /\ g_ylabel a = "DC Current (uA)"%string /\ g_title a = lo_legend f.
Proof.
  destruct drawn_iv as [items [E S]]. destruct (top_limit vmax) as [c [T C]]. unfold plot_iv. change (in_units (d_voltage d) (dc_vgap dc * 10 ^ 3)) with V0. change (in_units (d_current d) (dc_igap dc * 10 ^ 6)) with I0. rewrite T. cbn [bind]. rewrite E. cbn [bind nth].
  eexists. exists c. split; [reflexivity|]. split; [now apply S|]. rewrite title_eq. auto 10.
Qed.

(** Figures with IF data. *)
Variable n : ifresults.
Hypothesis HI : u_if u = Some n.
Local Notation VIF := (millivolts dc (n_voltage n)).
Lemma if_parts : exists h c, hot = Some h /\ cold = Some c /\ o_analyze_if o = true /\
  if_data savgol argsort h c dc (Model_Objects.calibration d) (if_options o) = Ok (n_voltage n, n_hot n, n_cold n, n_tn n, n_gain n, n_best n, n_dcif n) /\
  if_summary (u_voltage u) (u_current u) (n_voltage n) (n_tn n) (n_gain n) (n_best n) (dc_rn dc) = Ok (n_summary n).
Proof.
  destruct (pumped_inv _ _ _ _ _ _ _ _ _ HP) as [f' [_ [_ [_ [_ [_ [_ [_ H]]]]]]]]. destruct hot as [h|]; [|rewrite HI in H; discriminate]. destruct cold as [c|]; [|rewrite HI in H; discriminate]. destruct (o_analyze_if o); [|rewrite HI in H; discriminate].
  destruct H as [n' [E [A B]]]. rewrite HI in E. injection E as <-. exists h, c. auto.
Qed.
Lemma mv_eq l : map (fun a => a * dc_vgap dc * 10 ^ 3) l = millivolts dc l.
Proof. apply map_ext. intros. ring. Qed.
Hypothesis HS : sorting argsort.
Hypothesis HF0 : 0 < f.
Hypothesis HT : 0 < o_t_cold o < o_t_hot o.
Lemma if_sizes : let N := length (n_voltage n) in length (n_hot n) = N /\ length (n_cold n) = N /\ length (n_tn n) = N /\ length (n_gain n) = N /\ (n_best n < N)%nat /\ b_tn (n_summary n) = nth (n_best n) (n_tn n) FNaN.
Proof. clear HM HN.
  destruct if_parts as [h [c [EH [EC [EA [D S]]]]]]. destruct (if_lengths savgol argsort h c dc (Model_Objects.calibration d) (if_options o) _ _ _ _ _ _ _ HS D) as [L1 [L2 [L3 [FT _]]]].
  pose proof HP as PU. rewrite EH, EC in PU. destruct (if_arguments argsort savgol J m h c o d u n f HS PU HI HF HF0 HT HG) as [P [Q [_ [_ [_ [_ [L4 [L5 _]]]]]]]]. cbv zeta. cbn [if_options q_npts] in *. rewrite L1, L2, L3, L4, L5. do 4 (split; [reflexivity|]).
  unfold if_summary in S. destruct (lt_dec (n_best n) (length (n_tn n))) as [B|B].
  - rewrite L4 in B. split; [assumption|]. rewrite (pyget_nth (n_tn n) (Z.of_nat (n_best n)) FNaN) in S by lia. cbn [bind] in S. replace (Z.of_nat (n_best n) <? 0)%Z with false in S by (symmetry; apply Z.ltb_ge; lia). rewrite Nat2Z.id in S.
    repeat (apply bind_ok in S; destruct S as [? [_ S]]). apply ok_inj in S. now rewrite <- S.
  - exfalso. rewrite pyget_err in S by lia. discriminate.
Qed.
Lemma dc_if_sizes : match d_if d with Some (v, q, _) => length q = length v | None => True end.
Proof. clear HM HN.
  destruct (dc_inv _ _ _ _ _ _ _ _ _ HD) as [_ [_ [_ [_ F]]]]. destruct f0 as [mf|]; [|now rewrite F]. destruct F as [[[v q] c] [E ->]]. destruct (dcif_inv savgol argsort mf dc (if_options o0) v q c HS E) as [p0 [L [-> _]]]. rewrite map_length. apply load_grid in L; [|assumption]. destruct L as [_ [-> L]]. rewrite linspace_length. exact L.
Qed.
Lemma if_figure vmax : exists a, plot_if d u vmax = Ok a /\
  shows a (("Hot"%string, power_points dc n (n_hot n)) :: ("Cold"%string, power_points dc n (n_cold n)) :: match d_if d with Some (v, q, _) => [("No LO"%string, List.combine (millivolts dc v) (map FV q))] | None => [] end) [] /\
  g_xlabel a = "Bias Voltage (mV)"%string /\ g_ylabel a = "IF Power (K)"%string /\ g_title a = lo_legend f /\ g_xlim a = (Some 0, Some vmax).
Proof. clear HM HN.
  destruct if_sizes as [L1 [L2 _]]. pose proof dc_if_sizes as LD. unfold plot_if, if_results. rewrite HI. cbn [bind]. rewrite mv_eq. rewrite !curve_ok by (unfold Model_Plots.numbers, millivolts; rewrite !map_length; congruence). cbn [bind].
  destruct (d_if d) as [[[v q] c]|]; cbn [bind].
  - rewrite mv_eq. rewrite curve_ok by (unfold Model_Plots.numbers, millivolts; rewrite !map_length; congruence). cbn [bind]. eexists. split; [reflexivity|]. unfold shows, power_points. cbn [g_items g_xlabel g_ylabel g_title g_xlim map fst snd app]. rewrite !unzip_l, !unzip_r by (unfold millivolts; rewrite !map_length; congruence). rewrite title_eq. auto 10.
  - eexists. split; [reflexivity|]. unfold shows, power_points. cbn [g_items g_xlabel g_ylabel g_title g_xlim map fst snd app]. rewrite !unzip_l, !unzip_r by (unfold millivolts; rewrite !map_length; congruence). rewrite title_eq. auto 10.
Qed.
Lemma ivif_figure vmax : exists a b top, plot_ivif d u vmax = Ok (a, b) /\ shows a curves_uA lines_mV /\ on_curve V0 I0 vmax top /\
  shows b [("Hot"%string, where_nonzero (n_hot n) (power_points dc n (n_hot n))); ("Cold"%string, where_nonzero (n_cold n) (power_points dc n (n_cold n)))] [] /\
  g_xlim a = (Some 0, Some vmax) /\ g_ylim a = (Some 0, Some top) /\ g_xlim b = (Some 0, Some vmax) /\ g_xlabel a = "Bias Voltage (mV)"%string /\ g_ylabel a = "DC Current ($\mu$A)"%string /\ g_ylabel b = "IF Power (K)"%string.
Proof.
  destruct if_sizes as [L1 [L2 _]]. destruct drawn_iv as [items [E S]]. destruct (top_limit vmax) as [c [T C]]. destruct (dc_igap_eq argsort minimize savgol spline dspline m0 f0 o0 d HD) as [RN IG].
  unfold plot_ivif. rewrite quot_eq by assumption. cbn [bind]. rewrite <- IG. change (in_units (d_voltage d) (dc_vgap dc * 10 ^ 3)) with V0. change (in_units (d_current d) (dc_igap dc * 10 ^ 6)) with I0. rewrite T. cbn [bind]. rewrite E. cbn [bind nth]. unfold if_results. rewrite HI. cbn [bind].
  rewrite mv_eq. rewrite !mask_select by (unfold millivolts; rewrite ?map_length; congruence). cbn [bind]. rewrite !curve_ok by (unfold Model_Plots.numbers, millivolts; rewrite !map_length; apply where_length; rewrite map_length; congruence). cbn [bind].
  eexists. eexists. exists c. split; [reflexivity|]. split; [now apply S|]. split; [assumption|]. split; [|auto 10]. unfold shows, power_points. cbn [g_items map fst snd app]. rewrite <- !combine_where by (unfold millivolts; rewrite !map_length; congruence).
  rewrite !unzip_l, !unzip_r by (apply where_length; unfold millivolts; rewrite !map_length; congruence). unfold Model_Plots.numbers. rewrite !where_map. reflexivity.
Qed.
(** Hot and cold powers where the hot power is not zero, smoothed; the noise temperature and
    the best point. *)
Local Notation best_v := (best_voltage dc n).
Lemma best_get {A} (l : list A) x : length l = length (n_voltage n) -> pyget l (Z.of_nat (n_best n)) = Ok (nth (n_best n) l x).
Proof. clear HM HN. destruct if_sizes as [_ [_ [_ [_ [B _]]]]]. intros L. rewrite (pyget_nth l _ x) by lia. replace (Z.of_nat (n_best n) <? 0)%Z with false by (symmetry; apply Z.ltb_ge; lia). now rewrite Nat2Z.id. Qed.
Lemma noise_temp_figure vmax r : plot_noise_temp d u vmax = Ok r -> exists a b sh sc t top, r = (a, b) /\ nth (n_best n) (n_tn n) FNaN = FV t /\
  gauss_conv (where_nonzero (n_hot n) (n_hot n)) 5 3 = Ok sh /\ gauss_conv (where_nonzero (n_hot n) (n_cold n)) 5 3 = Ok sc /\
  shows a [("Hot IF"%string, List.combine (where_nonzero (n_hot n) VIF) (map FV sh)); ("Cold IF"%string, List.combine (where_nonzero (n_hot n) VIF) (map FV sc))] [] /\
  shows b [("Noise Temp."%string, where_nonzero (n_hot n) (List.combine VIF (n_tn n))); mark ("$T_\mathrm{n}=" ++ fixed false 0 1 t ++ "$ K")%string best_v (FV t)] [] /\
  (nth (n_best n) (n_hot n) 0 <> 0 -> In (best_v, FV t) (where_nonzero (n_hot n) (List.combine VIF (n_tn n)))) /\
  In top sh /\ (forall p, In p sh -> p <= top) /\ g_ylim a = (Some 0, Some (top * (13 / 10))) /\ g_ylim b = (Some 0, Some (t * 5)) /\ g_xlim b = (Some 0, Some vmax) /\
  g_xlabel a = "Bias Voltage (mV)"%string /\ g_ylabel a = "IF Power (K)"%string /\ g_ylabel b = "Noise Temperature (K)"%string.
Proof. clear HM HN.
  intros H. destruct if_sizes as [L1 [L2 [L3 [L4 [B BT]]]]]. cbv zeta in *. unfold plot_noise_temp, if_results in H. rewrite HI in H. cbn [bind] in H. rewrite !mask_select in H by congruence. cbn [bind] in H. rewrite mv_eq in H.
  destruct (gauss_conv (where_nonzero (n_hot n) (n_hot n)) 5 3) as [sh|] eqn:SH; [|discriminate]. cbn [bind] in H. destruct (gauss_conv (where_nonzero (n_hot n) (n_cold n)) 5 3) as [sc|] eqn:SC; [|discriminate]. cbn [bind] in H.
  apply bind_ok in H. destruct H as [c1 [C1 H]]. apply curve_eq in C1. destruct C1 as [-> Q1]. apply bind_ok in H. destruct H as [c2 [C2 H]]. apply curve_eq in C2. destruct C2 as [-> Q2]. apply bind_ok in H. destruct H as [top [TP H]]. rewrite ?mask_select in H by congruence. cbn [bind] in H.
  apply bind_ok in H. destruct H as [c3 [C3 H]]. apply curve_eq in C3. destruct C3 as [-> Q3]. rewrite (best_get (n_voltage n) 0 eq_refl) in H. cbn [bind] in H. apply bind_ok in H. destruct H as [c4 [C4 H]]. apply curve_eq in C4. destruct C4 as [-> _]. rewrite BT in H.
  destruct (nth (n_best n) (n_tn n) FNaN) as [t| | |] eqn:ET; cbn [fmul limit bind] in H; [|exfalso; revert H; unfold finf; repeat (match goal with |- context [if ?b then _ else _] => destruct b end); discriminate ..].
  apply ok_inj in H. subst r. assert (EB : best_v = nth (n_best n) (n_voltage n) 0 * dc_vgap dc * 10 ^ 3) by (unfold best_voltage, millivolts; rewrite (nth_map_in _ _ _ _ 0) by assumption; ring). rewrite <- EB.
  eexists. eexists. exists sh, sc, t, top. split; [reflexivity|]. split; [reflexivity|]. split; [reflexivity|]. split; [reflexivity|]. unfold shows. cbn [g_items g_ylim g_xlim g_xlabel g_ylabel map fst snd app mark show_fl].
  unfold Model_Plots.numbers in *. assert (EW : millivolts dc (where_nonzero (n_hot n) (n_voltage n)) = where_nonzero (n_hot n) VIF) by (unfold millivolts; now rewrite where_map). rewrite EW in *. rewrite <- !combine_where by (unfold millivolts; rewrite map_length; congruence).
  rewrite !unzip_l, !unzip_r by assumption. split; [reflexivity|]. split; [reflexivity|]. split; [|].
  - intros NZ. rewrite combine_where by (unfold millivolts; rewrite map_length; congruence). replace (best_v, FV t) with (nth (n_best n) (List.combine VIF (n_tn n)) (0, FNaN)) by (rewrite combine_nth by (unfold millivolts; rewrite map_length; congruence); unfold best_voltage; now rewrite ET). apply where_in; [lia| |assumption]. rewrite combine_length. unfold millivolts. rewrite map_length. lia.
  - destruct (amax_ok sh top TP) as [T1 T2]. auto 20.
Qed.
Lemma smooth_15 l : (31 <= length l)%nat -> exists y, gauss_conv l 5 3 = Ok y.
Proof. clear HM HN. intros L. apply conv_ok. exists 31%nat. unfold window_points. rewrite (INR_IZR_INZ 31). change (IZR (Z.of_nat 31)) with 31. split; [lra|]. split; [|assumption]. assert (0 < / 10 ^ 5 < 1 / 2); [|lra]. split; [apply Rinv_0_lt_compat; lra|]. lra. Qed.
Lemma where_same h : exists k, length (where_nonzero h h) = k /\ forall (l : list R), length l = length h -> length (where_nonzero h l) = k.
Proof. clear HM HN. exists (length (where_nonzero h h)). split; [reflexivity|]. intros l L. now apply where_length. Qed.
Lemma noise_temp_total vmax t : (31 <= length (where_nonzero (n_hot n) (n_hot n)))%nat -> nth (n_best n) (n_tn n) FNaN = FV t -> exists r, plot_noise_temp d u vmax = Ok r.
Proof. clear HM HN.
  intros K ET. destruct if_sizes as [L1 [L2 [L3 [L4 [B BT]]]]]. cbv zeta in *. unfold plot_noise_temp, if_results. rewrite HI. cbn [bind]. rewrite !mask_select by congruence. cbn [bind]. rewrite mv_eq.
  destruct (smooth_15 _ K) as [sh SH]. rewrite SH. cbn [bind]. assert (LC : length (where_nonzero (n_hot n) (n_cold n)) = length (where_nonzero (n_hot n) (n_hot n))) by (apply where_length; congruence). destruct (smooth_15 (where_nonzero (n_hot n) (n_cold n))) as [sc SC]; [lia|]. rewrite SC. cbn [bind].
  apply conv_length in SH as QH. apply conv_length in SC as QC. assert (LV : length (where_nonzero (n_hot n) (n_voltage n)) = length (where_nonzero (n_hot n) (n_hot n))) by (apply where_length; congruence).
  rewrite !curve_ok by (unfold Model_Plots.numbers, millivolts; rewrite !map_length; congruence). cbn [bind]. destruct (amax_some sh) as [top ->]; [destruct sh; [cbn in QH; lia|discriminate]|]. cbn [bind].
  rewrite curve_ok by (unfold millivolts; rewrite map_length; apply where_length; congruence). cbn [bind]. rewrite (best_get (n_voltage n) 0 eq_refl). cbn [bind]. rewrite curve_ok by reflexivity. cbn [bind]. rewrite BT, ET. cbn [fmul limit bind]. eauto.
Qed.
(** The Y-factor. *)
Lemma yfac_figure vmax r : plot_yfac_noise_temp d u vmax = Ok r -> exists a b sh sc y, r = (a, b) /\ gauss_conv (n_hot n) 5 3 = Ok sh /\ gauss_conv (n_cold n) 5 3 = Ok sc /\
  length y = length (n_voltage n) /\ (forall k, (k < length (n_voltage n))%nat -> nth k y FNaN = fdiv (FV (nth k sh 0)) (FV (nth k sc 0))) /\
  let t := nth (n_best n) (n_tn n) FNaN in
  shows a [("Y-factor"%string, List.combine VIF y)] [Horizontal (293 / 77)] /\
  shows b [("Noise Temp."%string, List.combine VIF (n_tn n)); mark "" best_v t] [Note (show_fl 1 t ++ " K") (FV best_v) t] /\
  In (best_v, t) (List.combine VIF (n_tn n)) /\ g_xlim a = (Some 0, Some vmax) /\ g_ylim a = (Some 1, Some 4) /\ g_ylim b = (Some 0, Some 300) /\
  g_xlabel a = "Bias Voltage (mV)"%string /\ g_ylabel a = "Y-factor"%string /\ g_ylabel b = "Noise Temperature (K)"%string.
Proof. clear HM HN.
  intros H. destruct if_sizes as [L1 [L2 [L3 [L4 [B BT]]]]]. cbv zeta in *. unfold plot_yfac_noise_temp, if_results in H. rewrite HI in H. cbn [bind] in H. rewrite mv_eq in H.
  destruct (gauss_conv (n_hot n) 5 3) as [sh|] eqn:SH; [|discriminate]. cbn [bind] in H. destruct (gauss_conv (n_cold n) 5 3) as [sc|] eqn:SC; [|discriminate]. cbn [bind] in H.
  apply conv_length in SH as QH. apply conv_length in SC as QC. rewrite bcast_eq in H by congruence. cbn [bind] in H. apply bind_ok in H. destruct H as [c1 [C1 H]]. apply curve_eq in C1. destruct C1 as [-> Q1]. apply bind_ok in H. destruct H as [c2 [C2 H]]. apply curve_eq in C2. destruct C2 as [-> Q2].
  assert (LV : length VIF = length (n_voltage n)) by (unfold millivolts; now rewrite map_length). rewrite (best_get VIF 0 LV) in H. cbn [bind] in H. fold (best_voltage dc n) in H. apply bind_ok in H. destruct H as [c3 [C3 H]]. apply curve_eq in C3. destruct C3 as [-> _]. apply ok_inj in H. subst r. rewrite BT.
  eexists. eexists. exists sh, sc. eexists. split; [reflexivity|]. split; [reflexivity|]. split; [reflexivity|]. split; [rewrite <- Q1; exact LV|]. split.
  { intros k Hk. rewrite (nth_zipwith _ _ _ _ 0 0 FNaN) by lia. reflexivity. }
  unfold shows. cbn [g_items g_ylim g_xlim g_xlabel g_ylabel map fst snd app mark]. rewrite !unzip_l, !unzip_r by congruence. split; [reflexivity|]. split; [reflexivity|]. split; [|auto 20].
  unfold best_voltage. rewrite <- combine_nth by congruence. apply nth_In. rewrite combine_length. lia.
Qed.
Lemma yfac_total vmax : (31 <= length (n_voltage n))%nat -> exists r, plot_yfac_noise_temp d u vmax = Ok r.
Proof. clear HM HN.
  intros K. destruct if_sizes as [L1 [L2 [L3 [L4 [B BT]]]]]. cbv zeta in *. unfold plot_yfac_noise_temp, if_results. rewrite HI. cbn [bind]. rewrite mv_eq. destruct (smooth_15 (n_hot n)) as [sh SH]; [lia|]. rewrite SH. cbn [bind]. destruct (smooth_15 (n_cold n)) as [sc SC]; [lia|]. rewrite SC. cbn [bind].
  apply conv_length in SH as QH. apply conv_length in SC as QC. rewrite bcast_eq by congruence. cbn [bind]. assert (LV : length VIF = length (n_voltage n)) by (unfold millivolts; now rewrite map_length). rewrite !curve_ok by (rewrite ?zipwith_length; lia). cbn [bind]. rewrite (best_get VIF 0 LV). cbn [bind]. rewrite curve_ok by reflexivity. cbn [bind]. eauto.
Qed.
(** Gain and noise temperature. *)
Lemma gain_noise_figure vmax : (exists t, nth (n_best n) (n_tn n) FNaN = FV t) \/ plot_gain_noise_temp d u vmax = Err ValueError.
Proof. clear HM HN.
  destruct if_sizes as [L1 [L2 [L3 [L4 [B BT]]]]]. cbv zeta in *. destruct (nth (n_best n) (n_tn n) FNaN) as [t| | |] eqn:ET; [left; eauto|right ..];
  unfold plot_gain_noise_temp, if_results; rewrite HI; cbn [bind]; rewrite mv_eq; assert (LV : length VIF = length (n_voltage n)) by (unfold millivolts; now rewrite map_length);
  rewrite !curve_ok by congruence; cbn [bind]; rewrite (best_get VIF 0 LV); cbn [bind]; rewrite (best_get (n_gain n) FNaN L4); cbn [bind]; rewrite !curve_ok by (reflexivity || congruence); cbn [bind]; rewrite BT;
  cbn [fmul]; unfold finf; repeat (match goal with |- context [if ?b then _ else _] => destruct b end); reflexivity.
Qed.
Lemma gain_noise_ok vmax t : nth (n_best n) (n_tn n) FNaN = FV t -> exists a b, plot_gain_noise_temp d u vmax = Ok (a, b) /\ let g := nth (n_best n) (n_gain n) FNaN in
  shows a [("Gain"%string, List.combine VIF (n_gain n)); mark "" best_v g] [Note ("$G_\mathrm{c}=" ++ show_fl 2 g ++ "$") (FV best_v) g] /\
  shows b [("Noise Temp."%string, List.combine VIF (n_tn n)); mark "" best_v (FV t)] [Note ("$T_\mathrm{N}=" ++ fixed false 0 1 t ++ "$ K") (FV best_v) (FV t)] /\
  In (best_v, g) (List.combine VIF (n_gain n)) /\ In (best_v, FV t) (List.combine VIF (n_tn n)) /\
  g_xlim a = (Some 0, Some vmax) /\ g_ylim b = (Some 0, Some (t * 5)) /\ g_xlabel a = "Bias Voltage (mV)"%string /\ g_ylabel a = "Gain"%string /\ g_ylabel b = "Noise Temperature (K)"%string.
Proof. clear HM HN.
  intros ET. destruct if_sizes as [L1 [L2 [L3 [L4 [B BT]]]]]. cbv zeta in *. unfold plot_gain_noise_temp, if_results; rewrite HI; cbn [bind]; rewrite mv_eq. assert (LV : length VIF = length (n_voltage n)) by (unfold millivolts; now rewrite map_length).
  rewrite !curve_ok by congruence; cbn [bind]; rewrite (best_get VIF 0 LV); cbn [bind]; rewrite (best_get (n_gain n) FNaN L4); cbn [bind]; rewrite !curve_ok by (reflexivity || congruence); cbn [bind]. rewrite BT, ET. cbn [fmul limit bind]. fold (best_voltage dc n).
  eexists. eexists. split; [reflexivity|]. unfold shows. cbn [g_items g_ylim g_xlim g_xlabel g_ylabel map fst snd app mark show_fl]. rewrite !unzip_l, !unzip_r by congruence. split; [reflexivity|]. split; [reflexivity|].
  assert (I1 : In (nth (n_best n) (List.combine VIF (n_gain n)) (0, FNaN)) (List.combine VIF (n_gain n))) by (apply nth_In; rewrite combine_length; lia). rewrite combine_nth in I1 by congruence.
  assert (I2 : In (nth (n_best n) (List.combine VIF (n_tn n)) (0, FNaN)) (List.combine VIF (n_tn n))) by (apply nth_In; rewrite combine_length; lia). rewrite combine_nth, ET in I2 by congruence. fold (best_voltage dc n) in I1, I2. auto 20.
Qed.
(** The gain in percent. *)
Lemma fmax_top l g : (forall x, In x l -> exists y, x = FV y) -> fmaximum l = Ok g -> exists y, g = FV y /\ In g l /\ forall z, In (FV z) l -> z <= y.
Proof. clear HM HN.
  destruct l as [|a l]; [discriminate|]. cbn [fmaximum]. intros F H. apply ok_inj in H. subst g. assert (exists y, a = FV y) as [y ->] by (apply F; now left). revert y F. induction l as [|b l IH]; intros y F.
  - exists y. split; [reflexivity|]. split; [now left|]. intros z [E|[]]. injection E as ->. lra.
  - assert (exists x, b = FV x) as [x ->] by (apply F; right; now left). cbn [fold_left fmax2 fisnan flt]. destruct (Rltb y x) eqn:C.
    + destruct (IH x) as [z [E [I M]]]; [intros w [<-|W]; [eauto|apply F; auto with datatypes]|]. exists z. split; [assumption|]. split; [destruct I as [I|I]; [right; left; exact I|right; right; exact I]|]. pose proof (M x (or_introl eq_refl)) as MX. destruct (Rltb_spec y x); [|discriminate]. intros w [E'|[E'|W]]; [injection E' as <-; lra|injection E' as <-; lra|]. apply M. now right.
    + destruct (IH y) as [z [E [I M]]]; [intros w [<-|W]; [eauto|apply F; auto with datatypes]|]. exists z. split; [assumption|]. split; [destruct I as [I|I]; [left; exact I|right; right; exact I]|]. pose proof (M y (or_introl eq_refl)) as MX. destruct (Rltb_spec y x); [discriminate|]. intros w [E'|[E'|W]]; [injection E' as <-; lra|injection E' as <-; lra|]. apply M. now right.
Qed.
Lemma gain_figure vmax : (forall x, In x (n_gain n) -> exists y, x = FV y) -> exists a top, plot_gain d u vmax = Ok a /\ In (FV top) (n_gain n) /\ (forall z, In (FV z) (n_gain n) -> z <= top) /\
  shows a [("$G_{{c}}$"%string, List.combine VIF (map (fun g => fmul g (FV 100)) (n_gain n)))] [] /\ g_xlim a = (Some 0, Some vmax) /\ g_ylim a = (Some 0, Some (top * 105)) /\ g_xlabel a = "Bias Voltage (mV)"%string /\ g_ylabel a = "Gain (%)"%string.
Proof. clear HM HN.
  intros F. destruct if_sizes as [L1 [L2 [L3 [L4 [B BT]]]]]. cbv zeta in *. unfold plot_gain, if_results. rewrite HI. cbn [bind]. rewrite mv_eq. assert (LV : length VIF = length (n_voltage n)) by (unfold millivolts; now rewrite map_length). rewrite curve_ok by (rewrite map_length; congruence). cbn [bind].
  destruct (n_gain n) as [|g l] eqn:EG; [cbn in L4; lia|]. destruct (fmax_top (g :: l) _ F eq_refl) as [y [E [I M]]]. cbn [fmaximum bind]. rewrite E in *. cbn [fmul limit bind]. eexists. exists y. split; [reflexivity|]. split; [assumption|]. split; [assumption|].
  unfold shows. cbn [g_items g_ylim g_xlim g_xlabel g_ylabel fst snd app]. cbn [map fst snd app]. rewrite unzip_l, unzip_r by (cbn [length] in *; rewrite ?map_length in *; congruence). auto 20.
Qed.
End Pumped.
Lemma no_if d u vmax : u_if u = None -> plot_if d u vmax = Err TypeError /\ plot_noise_temp d u vmax = Err TypeError /\ plot_yfac_noise_temp d u vmax = Err TypeError /\ plot_gain_noise_temp d u vmax = Err TypeError /\ plot_gain d u vmax = Err TypeError.
Proof. intros H. unfold plot_if, plot_noise_temp, plot_yfac_noise_temp, plot_gain_noise_temp, plot_gain, if_results. rewrite H. auto 10. Qed.
