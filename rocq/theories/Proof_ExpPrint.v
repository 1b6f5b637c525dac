(** Proofs about what is printed while experimental data are analysed. *)
From Coq Require Import List ZArith Lia Lra Bool Arith Reals String Ascii.
From Coquelicot Require Import Complex.
From Verif Require Import Base Round Model_QtCurrent Float NumPy Proof_NumPy Model_MathFn Model_CleanData Model_RespFn Model_IVData Model_Tucker Model_IFData Model_ExpData Model_Objects
  Spec_CleanData Spec_IVData Spec_IFData Spec_IFShot Proof_Circuit Proof_RespFn2 Proof_IFNoise Proof_IFShot Proof_IFShot2 Model_Misc Model_Print Spec_Misc Spec_Print Proof_Misc Proof_Print Proof_Print2 Spec_HBText Proof_HBText Model_Said Proof_Said Model_ExpPrint Spec_ExpPrint.
From Verif Require Proof_IVData.
Import ListNotations.
Local Notation length := List.length.
Open Scope list_scope.
Open Scope R_scope.

(** ** Positions *)
Lemma argmin_from_bound l : forall b pos next, (pos < next)%nat -> (fargmin_from b pos next l < next + length l)%nat.
Proof. induction l as [|a l IH]; intros b pos next H; cbn [fargmin_from length]; [lia|]. destruct (_ && _)%bool; [specialize (IH a next (S next))|specialize (IH b pos (S next))]; lia. Qed.
Lemma argmin_bound l k : fargmin l = Ok k -> (k < length l)%nat.
Proof. destruct l as [|a l]; [discriminate|]. cbn [fargmin length]. intros H. assert (E : fargmin_from a 0 1 l = k) by congruence. subst. pose proof (argmin_from_bound l a 0 1). lia. Qed.
Lemma argmax_from_bound l : forall b pos next, (pos < next)%nat -> (fargmax_from b pos next l < next + length l)%nat.
Proof. induction l as [|a l IH]; intros b pos next H; cbn [fargmax_from length]; [lia|]. destruct (_ && _)%bool; [specialize (IH a next (S next))|specialize (IH b pos (S next))]; lia. Qed.
Lemma argmax_bound l k : fargmax l = Ok k -> (k < length l)%nat.
Proof. destruct l as [|a l]; [discriminate|]. cbn [fargmax length]. intros H. assert (E : fargmax_from a 0 1 l = k) by congruence. subst. pose proof (argmax_from_bound l a 0 1). lia. Qed.
Lemma tn_gain_position v h c g q tn gain idx : length h = length v -> length c = length v -> find_tn_gain v h v c g q = Ok (tn, gain, idx) ->
  length tn = length v /\ length gain = length v /\ (idx < length v)%nat.
Proof.
  intros LH LC H. unfold find_tn_gain in H. do 5 (apply bind_ok in H; destruct H as [? [_ H]]). rewrite !bcast_eq in H by congruence. cbn [bind] in H. cbv zeta in H.
  apply bind_ok in H. destruct H as [k [K H]]. assert (E1 : tn = map (fun y => fdiv (fsub x0 (fmul x1 y)) (fsub y (FV 1))) (zipwith y_factor h c)) by congruence.
  assert (E2 : gain = zipwith (fun h c => fdiv (FV (h - c)) (fsub x0 x1)) h c) by congruence. assert (k = idx) by congruence. subst k. clear H.
  assert (T : length tn = length v) by (rewrite E1, map_length, zipwith_length; congruence). assert (G : length gain = length v) by (rewrite E2, zipwith_length; congruence).
  split; [assumption|]. split; [assumption|]. rewrite <- E1, <- E2 in K. destruct (q_vbest q); [apply argmin_bound in K; now rewrite map_length in K|].
  destruct (String.eqb _ _); [apply argmax_bound in K; lia|]. destruct (String.eqb _ _); [|discriminate]. apply bind_ok in K. destruct K as [b [_ K]]. unfold nanargmin in K. apply bind_ok in K. destruct K as [k [K K2]].
  apply bind_ok in K2. destruct K2 as [_ [_ K2]]. assert (k = idx) by congruence. subst k. apply argmin_bound in K. rewrite !map_length in K. lia.
Qed.
Lemma pyget_at {A} (l : list A) n : (n < length l)%nat -> exists a, pyget l (Z.of_nat n) = Ok a /\ nth_error l n = Some a.
Proof.
  intros H. destruct (nth_error l n) as [a|] eqn:E; [|apply nth_error_None in E; lia]. exists a. split; [|reflexivity]. rewrite (pyget_nth l (Z.of_nat n) a) by lia. destruct (Z.ltb_spec (Z.of_nat n) 0); [lia|]. rewrite Nat2Z.id. f_equal. now apply nth_error_nth.
Qed.

(** ** The same results *)
Ltac quiet := rewrite after_quiet.
Section Oracles.
Variable argsort : list fl -> list nat.
Variable minimize : (R * R -> R) -> R * R -> R * R.
Variable savgol : list R -> Z -> Z -> list R.
Variable J : nat -> R -> R.
Variable spline dspline : list R -> list R -> Z -> R -> R.
Variable verbose : bool.

Lemma curve_report m p : dciv_curve_p argsort minimize savgol m p =
  (match dciv_curve minimize savgol argsort m p with Ok (_, _, dc) => warnings (dc_rn dc) | Err _ => fst (dciv_curve_p argsort minimize savgol m p) end, dciv_curve minimize savgol argsort m p).
Proof.
  unfold dciv_curve_p, dciv_curve. quiet. destruct (loaded argsort m p) as [[v i]|]; [|reflexivity]. cbn [bind]. quiet. destruct (correct_offset _ _ _ _ _ _) as [[[v1 i1] off]|]; [|reflexivity]. cbn [bind].
  quiet. destruct (processed _ _ _ _) as [[[vr ir] [v2 i2]]|]; [|reflexivity]. cbn [bind]. quiet. destruct (match p_vgap p with Some g => Ok g | None => _ end) as [vgap|]; [|reflexivity]. cbn [bind].
  quiet. destruct (find_normal_resistance _ _ _) as [[rn vint]|]; [|reflexivity]. cbn [bind]. quiet. destruct (find_subgap_resistance _ _ _) as [rsg|]; [|reflexivity]. cbn [bind].
  quiet. destruct (quot vgap rn) as [igap|]; [|reflexivity]. cbn [bind]. rewrite !after_say. quiet. destruct (guard _ _); [|reflexivity]. cbn [bind]. quiet. destruct (np_interp _ _ _) as [cur|]; [|reflexivity]. cbn [bind fst snd quietly dc_rn].
  f_equal. unfold warnings. rewrite app_nil_r. destruct (Rltb_spec rn 1), (Rlt_dec rn 1), (Rltb_spec 50 rn), (Rlt_dec 50 rn); try reflexivity; contradiction.
Qed.
Lemma curve_same m p : snd (dciv_curve_p argsort minimize savgol m p) = dciv_curve minimize savgol argsort m p.
Proof. rewrite curve_report. reflexivity. Qed.
Lemma noise_same x y dc s : snd (find_if_noise_p savgol x y dc s) = find_if_noise savgol x y dc s.
Proof.
  unfold find_if_noise_p, find_if_noise. quiet. destruct (match s with None => _ | Some s => _ end) as [mask|]; [|reflexivity]. cbn [bind]. rewrite after_say. cbn [snd]. quiet. destruct (select _ x) as [xr|]; [|reflexivity]. cbn [bind].
  quiet. destruct (select _ y) as [yr|]; [|reflexivity]. cbn [bind]. quiet. destruct (linregress _ _) as [[sl ic]|]; [|reflexivity]. cbn [bind]. quiet. destruct (quot _ sl); [|reflexivity]. cbn [bind]. quiet. destruct (quot (dc_vint dc) _); [|reflexivity]. cbn [bind].
  quiet. destruct (np_interp _ _ _); [|reflexivity]. reflexivity.
Qed.
Hypothesis KL : keeps_length savgol.
Lemma noise_report x y dc s out r : length x = length y -> find_if_noise_p savgol x y dc s = (out, Ok r) ->
  exists n, samples_in_range savgol x y (dc_vgap dc) s n /\ out = shot_warning n.
Proof.
  intros L H. unfold find_if_noise_p in H. rewrite after_quiet in H. destruct (match s with None => _ | Some s => _ end) as [mask|] eqn:M; [|discriminate]. rewrite after_say in H. set (k := after _ _) in H.
  assert (KO : fst k = []). { unfold k. repeat (apply fst_quiet; [reflexivity|]; intros ?; try (match goal with p : (R * R)%type |- _ => destruct p end)). reflexivity. }
  rewrite KO, app_nil_r in H. assert (OUT : out = if (count_true mask <? 5)%nat then [ShotFailed] else []) by congruence. clear H k KO. subst out. exists (count_true mask). split; [|reflexivity].
  destruct s as [s|]; cbn [samples_in_range].
  - unfold range_mask in M. assert (E : match s with One lo hi => Ok [(lo, hi)] | Several [] => Err IndexError | Several l => Ok l end = Ok (ranges_of s)) by (destruct s as [lo hi|[|? ?]]; [reflexivity|discriminate M|reflexivity]).
    rewrite E in M. cbn [bind] in M. assert (M2 : mask = map (fun a => existsb (fun r => Rltb (fst r) (a * dc_vgap dc) && Rltb (a * dc_vgap dc) (snd r)) (ranges_of s)) x) by congruence. subst mask.
    rewrite count_map. unfold shot_samples. destruct (Proof_IVData.combine_unzip x y L) as [E1 E2]. rewrite <- E1 at 1. clear. induction (List.combine x y) as [|[a b] P IH]; [reflexivity|]. cbn [map filter fst]. rewrite in_ranges_eq. destruct (in_ranges _ _); cbn [length]; now rewrite IH.
  - rewrite auto_eq in M by (assumption || congruence). destruct (slopes savgol x y) as [[d1 d2]|] eqn:SL; [|discriminate]. cbn [bind fst snd] in M. destruct (amax _) as [top|] eqn:T; [|discriminate]. cbn [bind] in M.
    assert (M2 : mask = map (keepb x d1 d2 top) (seq 0 (length x))) by congruence. subst mask. rewrite count_map. destruct (slopes_lengths savgol KL x y d1 d2 (eq_sym L) SL) as [L1 [L2 LN]].
    exists d1, d2, (typical x d1 d2 top), (kept x d1 d2 top). split; [now apply slopes_spec|]. split; [now apply typical_spec|]. split; [apply NoDup_filter, seq_NoDup|]. split; [|reflexivity].
    intros k. unfold kept. rewrite filter_In, in_seq. split.
    + intros [K H]. apply (keepb_iff x d1 d2 top k L2 T) in H; [assumption|lia].
    + intros H. assert (K : (k < length x)%nat) by apply H. split; [lia|]. now apply keepb_iff.
Qed.
Lemma dcif_same m dc q : snd (dcif_data_p argsort savgol m dc q) = dcif_data savgol argsort m dc q.
Proof.
  unfold dcif_data_p, dcif_data. quiet. destruct (load_if argsort m dc q) as [[v p]|]; [|reflexivity]. cbn [bind]. rewrite snd_after, noise_same. destruct (find_if_noise _ _ _ _ _) as [[[[n c] l] f]|]; [|reflexivity]. cbn [bind]. quiet. destruct (amax v); reflexivity.
Qed.
Lemma dc_same comment m dcif o : snd (dc_data_p argsort minimize savgol spline dspline verbose comment m dcif o) = dc_data argsort minimize savgol spline dspline m dcif o.
Proof.
  unfold dc_data_p, dc_data. rewrite snd_after, curve_same. destruct (dciv_curve _ _ _ _ _) as [[[v c] dc]|]; [|reflexivity]. cbn [bind]. quiet. destruct (dc_summary _ _ _ _ _); [|reflexivity]. cbn [bind].
  quiet. destruct (respfn_from_iv _ _ _ _ _ (resp_options None)); [|reflexivity]. cbn [bind]. quiet. destruct (respfn_from_iv _ _ _ _ _ _); [|reflexivity]. cbn [bind]. rewrite snd_after.
  destruct dcif as [i|]; [|reflexivity]. rewrite snd_after, dcif_same. destruct (dcif_data _ _ _ _ _); reflexivity.
Qed.
Hypothesis SO : sorting argsort.
Lemma gain_same v h c g q : length h = length v -> length c = length v -> snd (find_tn_gain_p verbose v h v c g q) = find_tn_gain v h v c g q.
Proof.
  intros LH LC. unfold find_tn_gain_p. quiet. destruct (find_tn_gain v h v c g q) as [[[tn gain] idx]|] eqn:E; [|reflexivity]. destruct (tn_gain_position _ _ _ _ _ _ _ _ LH LC E) as [T [G I]].
  destruct verbose; [|reflexivity]. destruct (pyget_at tn idx) as [t [PT _]]; [lia|]. destruct (pyget_at gain idx) as [u [PU _]]; [lia|]. rewrite PT, PU. reflexivity.
Qed.
Lemma if_same hot cold dc dcif q : snd (if_data_p argsort savgol verbose hot cold dc dcif q) = if_data savgol argsort hot cold dc dcif q.
Proof.
  unfold if_data_p, if_data. rewrite after_say. cbn [snd]. quiet. destruct (load_if argsort hot dc q) as [[vh ph]|] eqn:EH; [|reflexivity]. cbn [bind]. quiet. destruct (load_if argsort cold dc q) as [[vc pc]|] eqn:EC; [|reflexivity]. cbn [bind].
  apply load_grid in EH; [|assumption]. apply load_grid in EC; [|assumption]. destruct EH as [_ [EV LH]], EC as [_ [EV' LC]]. rewrite <- EV' in EV. subst vh. assert (LV : length vc = q_npts q) by (rewrite EV'; apply linspace_length).
  rewrite snd_after. set (r1 := snd _). set (r2 := match dcif with None => bind _ _ | Some d => _ end). assert (E : r1 = r2).
  { unfold r1, r2. destruct dcif as [d|]; [reflexivity|]. quiet. destruct (bcast _ vc vc); [|reflexivity]. cbn [bind]. quiet. destruct (bcast _ ph pc); [|reflexivity]. cbn [bind]. rewrite snd_after, noise_same. destruct (find_if_noise _ _ _ _ _) as [[[[n c] l0] f]|]; reflexivity. }
  rewrite E. destruct r2 as [[[[noise corr] fit] shot]|]; [|reflexivity]. cbn [bind]. rewrite snd_after, gain_same by (rewrite map_length; congruence). destruct (find_tn_gain _ _ _ _ _ _) as [[[tn gain] idx]|]; [|reflexivity]. cbn [bind]. quiet. destruct (amax vc); reflexivity.
Qed.
Lemma recover_same idc ikk vgap rn v i vph q : snd (recover_zemb_p J idc ikk vgap rn v i vph q) = recover_zemb J idc ikk v i vph q.
Proof.
  unfold recover_zemb_p, recover_zemb. quiet. destruct (fit_limits q) as [[a b]|]; [|reflexivity]. cbn [bind]. rewrite after_say. cbn [snd]. quiet. destruct (on_step _ _ _ _ _) as [[x y]|]; [|reflexivity]. cbn [bind]. quiet. destruct (fargmin _); [|reflexivity]. cbn [bind].
  quiet. destruct (ac_side _ _ _ _ _ _ _) as [[[al av] az]|]; [|reflexivity]. cbn [bind]. quiet. destruct (pyget az _); [|reflexivity]. cbn [bind]. quiet. destruct (grid_search _ _ _) as [[[[es zt] vt] gf]|]; [|reflexivity]. cbn [bind]. rewrite !after_say. cbn [snd]. quiet. destruct (pyget al _); reflexivity.
Qed.
Lemma pumped_same comment m d hot cold o : snd (pumped_data_p argsort savgol J verbose comment m d hot cold o) = pumped_data argsort savgol J m d hot cold o.
Proof.
  unfold pumped_data_p, pumped_data. cbv zeta. quiet. destruct (o_freq o) as [f|]; [|reflexivity]. cbn [bind]. quiet. destruct (quot f _) as [r|]; [|reflexivity]. cbn [bind]. rewrite after_say. cbn [snd]. quiet. destruct (iv_curve _ _ _ _ _) as [[v i]|]; [|reflexivity]. cbn [bind].
  quiet. destruct (slope_span_n i v 21 true) as [rd|]; [|reflexivity]. cbn [bind]. rewrite snd_after. set (r1 := snd _). set (r2 := if o_analyze_iv o then bind _ _ else _). assert (E : r1 = r2).
  { unfold r1, r2. destruct (o_analyze_iv o); [|reflexivity]. quiet. destruct (quot _ _); [|reflexivity]. cbn [bind]. rewrite snd_after, recover_same. destruct (recover_zemb _ _ _ _ _ _ _); reflexivity. }
  rewrite E. destruct r2 as [rec|]; [|reflexivity]. cbn [bind]. rewrite snd_after. clear E r1. set (r1 := snd _). set (r2 := match hot with Some _ => _ | None => _ end). assert (E : r1 = r2).
  { unfold r1, r2. destruct hot as [hot|]; [|reflexivity]. destruct cold as [cold|]; [|reflexivity]. destruct (o_analyze_if o); [|reflexivity]. rewrite snd_after, if_same. destruct (if_data _ _ _ _ _ _ _) as [[[[[[[? ?] ?] ?] ?] ?] ?]|]; [|reflexivity]. cbn [bind]. quiet. destruct (if_summary _ _ _ _ _ _ _); reflexivity. }
  rewrite E. destruct r2; reflexivity.
Qed.
End Oracles.
