(** The data objects: photon voltage, common grid, units and order of the rows. *)
From Coq Require Import List ZArith Lia Bool Arith Reals Lra String Permutation Sorting.
From Coquelicot Require Import Complex.
From Verif Require Import Base Float NumPy Spec_CleanData Proof_CleanData Model_CleanData Model_MathFn Spec_RespFn Model_RespFn Spec_IVData Model_IVData Spec_IFData Model_IFData
  Model_ExpData Model_Objects Spec_Objects Proof_Circuit Proof_IVModels Proof_NumPy Proof_IVLoad Proof_IVData Proof_IVCurve Proof_IVCases Proof_IFLoad.
Import ListNotations.
Open Scope R_scope.
Local Notation length := List.length.
Local Notation Forall := List.Forall.

Tactic Notation "open" hyp(H) "as" simple_intropattern(p) := let E := fresh "E" in apply bind_ok in H; destruct H as [p [E H]].
Ltac step H := let a := fresh "a" in let E := fresh "E" in apply bind_ok in H; destruct H as [a [E H]].

Section Oracles.
Variable argsort : list fl -> list nat.
Variable minimize : (R * R -> R) -> R * R -> R * R.
Variable savgol : list R -> Z -> Z -> list R.
Variable J : nat -> R -> R.
Variable spline dspline : list R -> list R -> Z -> R -> R.
Local Notation DC := (dc_data argsort minimize savgol spline dspline).
Local Notation PUMPED := (pumped_data argsort savgol J).

(** ** What the constructors return *)
Lemma dc_inv m f o d : DC m f o = Ok d -> dciv_curve minimize savgol argsort m (iv_options o) = Ok (d_voltage d, d_current d, d_dc d) /\
  dc_summary (d_dc d) (d_voltage d) (d_current d) (o_area o) (o_vleak o) = Ok (d_summary d) /\
  respfn_from_iv spline dspline (d_voltage d) (d_current d) vlimit (resp_options None) = Ok (d_resp d) /\
  respfn_from_iv spline dspline (d_voltage d) (d_current d) vlimit (resp_options (o_v_smear o)) = Ok (d_resp_smear d) /\
  match f with None => d_if d = None | Some m => exists r, dcif_data savgol argsort m (d_dc d) (if_options o) = Ok r /\ d_if d = Some r end.
Proof.
  unfold dc_data. intros H. step H. destruct a as [[V I] dc]. step H. step H. step H. step H. injection H as <-. cbn.
  split; [assumption|]. split; [assumption|]. split; [assumption|]. split; [assumption|]. destruct f as [f|].
  - step E3. injection E3 as <-. eauto.
  - now injection E3 as <-.
Qed.
Lemma pumped_inv m d hot cold o p : PUMPED m d hot cold o = Ok p -> exists f, o_freq o = Some f /\ u_freq p = f /\ dc_fgap (d_dc d) <> 0 /\ u_vph p = f / dc_fgap (d_dc d) * 10 ^ 9 /\
  iv_curve savgol argsort m (d_dc d) (iv_options o) = Ok (u_voltage p, u_current p) /\
  slope_span_n (u_current p) (u_voltage p) 21 true = Ok (u_rdyn p) /\
  (if o_analyze_iv o then exists r, recover_zemb J (idc (d_resp d)) (ikk (d_resp d)) (u_voltage p) (u_current p) (f * 10 ^ 9 / dc_fgap (d_dc d)) (rec_options o) = Ok r /\ u_recovered p = Some r
   else u_recovered p = None) /\
  match hot, cold, o_analyze_if o with
  | Some hot, Some cold, true => exists n, u_if p = Some n /\
      if_data savgol argsort hot cold (d_dc d) (calibration d) (if_options o) = Ok (n_voltage n, n_hot n, n_cold n, n_tn n, n_gain n, n_best n, n_dcif n) /\
      if_summary (u_voltage p) (u_current p) (n_voltage n) (n_tn n) (n_gain n) (n_best n) (dc_rn (d_dc d)) = Ok (n_summary n)
  | _, _, _ => u_if p = None
  end.
Proof.
  unfold pumped_data. intros H. step H. destruct (o_freq o) as [f|]; [|discriminate]. injection E as <-. exists f. split; [reflexivity|].
  step H. unfold quot in E. destruct (Reqb_spec (dc_fgap (d_dc d)) 0) as [|N]; [discriminate|]. injection E as <-.
  step H. destruct a as [V I]. step H. step H. step H. injection H as <-. cbn. split; [reflexivity|]. split; [assumption|]. split; [reflexivity|]. split; [assumption|]. split; [assumption|]. split.
  - destruct (o_analyze_iv o).
    + step E1. unfold quot in E3. destruct (Reqb_spec (dc_fgap (d_dc d)) 0) as [|_]; [contradiction|]. injection E3 as <-. step E1. injection E1 as <-. eauto.
    + now injection E1 as <-.
  - destruct hot as [h|]; [|now injection E2 as <-]. destruct cold as [c|]; [|now injection E2 as <-]. destruct (o_analyze_if o); [|now injection E2 as <-].
    open E2 as [[[[[[vh ph] pc] tn] gain] idx] cal]. step E2. injection E2 as <-. eexists. split; [reflexivity|]. cbn. auto.
Qed.

(** ** Photon voltage *)
Lemma dciv_vgap m p V I dc : dciv_curve minimize savgol argsort m p = Ok (V, I, dc) -> dc_vgap dc <> 0 /\ dc_fgap dc = sc_e * dc_vgap dc / sc_h /\ V = map (fun a => a / dc_vgap dc) (linspace (- p_vmax p) (p_vmax p) (p_npts p)) /\ length I = length V.
Proof.
  unfold dciv_curve. intros H. step H. destruct a as [v i]. step H. destruct a as [[v' i'] off]. step H. destruct a as [[v2 i2] [v3 i3]]. step H. step H. destruct a0 as [rn vint]. step H. step H. step H. step H.
  injection H as <- <- <-. cbn. unfold guard in E6. destruct (Reqb_spec a 0) as [|N]; [discriminate|]. split; [assumption|]. split; [reflexivity|]. split; [reflexivity|]. apply np_interp_inv in E7. destruct E7 as [-> _]. now rewrite map_length.
Qed.
Lemma photon_voltage m0 f0 o0 d m hot cold o p f : DC m0 f0 o0 = Ok d -> PUMPED m d hot cold o = Ok p -> o_freq o = Some f ->
  elementary_charge * (u_vph p * dc_vgap (d_dc d)) = planck * (f * 10 ^ 9).
Proof.
  intros D P F. destruct (dc_inv _ _ _ _ D) as [A _]. destruct (dciv_vgap _ _ _ _ _ A) as [G [FG _]]. destruct (pumped_inv _ _ _ _ _ _ P) as [f' [F' [_ [N [VP _]]]]]. rewrite F in F'. injection F' as <-.
  rewrite VP, FG. unfold elementary_charge, planck, sc_e, sc_h. field. assumption.
Qed.
Lemma no_frequency m d hot cold o : o_freq o = None -> PUMPED m d hot cold o = Err ValueError.
Proof. intros F. unfold pumped_data. now rewrite F. Qed.

(** ** Common grid *)
Lemma iv_grid m dc p V I : iv_curve savgol argsort m dc p = Ok (V, I) -> V = map (fun a => a / dc_vgap dc) (linspace (- p_vmax p) (p_vmax p) (p_npts p)) /\ length I = length V.
Proof.
  unfold iv_curve. intros H. step H. destruct a as [v i]. destruct (match p_voffset p with Some vo => _ | None => _ end) as [vo io]. step H. destruct a as [[v2 i2] [v3 i3]]. step H. step H. injection H as <- <-.
  split; [reflexivity|]. unfold np_interp_zero in E2. step E2. injection E2 as <-. now rewrite map_length.
Qed.
Lemma common_grid m0 f0 o0 d m hot cold o p : DC m0 f0 o0 = Ok d -> PUMPED m d hot cold o = Ok p -> o_vmax o = o_vmax o0 -> o_npts o = o_npts o0 ->
  u_voltage p = d_voltage d /\ length (u_current p) = length (d_current d) /\ length (u_current p) = o_npts o.
Proof.
  intros D P E1 E2. destruct (dc_inv _ _ _ _ D) as [A _]. destruct (dciv_vgap _ _ _ _ _ A) as [_ [_ [V L]]]. destruct (pumped_inv _ _ _ _ _ _ P) as [f' [_ [_ [_ [_ [B _]]]]]]. destruct (iv_grid _ _ _ _ _ B) as [V' L'].
  cbn [iv_options p_vmax p_npts] in V, V'. assert (VV : u_voltage p = d_voltage d) by (rewrite V, V', E1, E2; reflexivity). split; [assumption|]. split; [rewrite L, L'; now f_equal|]. rewrite L', V', map_length. unfold linspace. now rewrite map_length, seq_length.
Qed.

(** ** What is analysed *)
Lemma analysed m d hot cold o p : PUMPED m d hot cold o = Ok p ->
  (u_recovered p <> None <-> o_analyze_iv o = true) /\ (u_if p <> None <-> hot <> None /\ cold <> None /\ o_analyze_if o = true) /\
  forall n c, u_if p = Some n -> calibration d = Some c -> if_noise (n_dcif n) = if_noise c /\ if_corr (n_dcif n) = if_corr c /\ if_fit (n_dcif n) = if_fit c /\ if_shot (n_dcif n) = if_shot c.
Proof.
  intros P. destruct (pumped_inv _ _ _ _ _ _ P) as [f [_ [_ [_ [_ [_ [_ [R F]]]]]]]]. split; [|split].
  - destruct (o_analyze_iv o); [destruct R as [r [_ ->]]|rewrite R]; split; intros; congruence.
  - destruct hot; [destruct cold; [destruct (o_analyze_if o)|]|]; [destruct F as [n [F _]]| | |]; rewrite F; split; intros K; try (exfalso; now apply K); try (destruct K as [? [? ?]]; congruence).
    split; [discriminate|]. split; [discriminate|reflexivity].
  - intros n c N C. destruct hot; [destruct cold; [destruct (o_analyze_if o)|]|]; try congruence. destruct F as [n' [F [D _]]]. rewrite N in F. injection F as <-.
    unfold if_data in D. rewrite C in D. step D. destruct a as [vh ph]. step D. destruct a as [vc pc]. cbn [bind] in D. step D. destruct a as [[tn gain] idx]. step D. injection D as _ _ _ _ _ _ D. rewrite <- D. cbn. auto.
Qed.

(** ** Units *)
Lemma fmul_fmul a k x y : 0 < k -> 0 < x -> k * x = y -> fmul (fmul a (FV k)) (FV x) = fmul a (FV y).
Proof.
  intros K X E. assert (0 < y) by nra. unfold fmul, finf. destruct a; rewrite ?(Reqb_f k 0), ?(Reqb_f x 0), ?(Reqb_f y 0), ?(Rltb_f k 0), ?(Rltb_f y 0), ?(Rltb_t (- k) 0), ?(Rltb_t (- y) 0) by lra; cbn; rewrite ?(Reqb_f x 0), ?(Rltb_f x 0), ?(Rltb_t (- x) 0) by lra; try reflexivity.
  f_equal. rewrite <- E. ring.
Qed.
Lemma fmul_one a : fmul a (FV 1) = a.
Proof. unfold fmul, finf. destruct a; rewrite ?(Reqb_f 1 0), ?(Rltb_f 1 0), ?(Rltb_t (- (1)) 0) by lra; try reflexivity. f_equal. ring. Qed.
Lemma load_units m u u' w w' x x' y y' : volts u = Some x -> volts u' = Some x' -> amperes w = Some y -> amperes w' = Some y' ->
  load_iv argsort (rescaled (x / x') (y / y') m) u' w' = load_iv argsort m u w.
Proof.
  intros U U' W W'. pose proof (volts_pos _ _ U). pose proof (volts_pos _ _ U'). pose proof (amperes_pos _ _ W). pose proof (amperes_pos _ _ W').
  destruct (Nat.eq_dec (ncols m) 2) as [NC|NC]; [|unfold load_iv; cbn [ncols rescaled]; apply Nat.eqb_neq in NC; rewrite NC; reflexivity].
  rewrite (load_eq argsort _ u' w' x' y') by assumption. rewrite (load_eq argsort _ u w x y) by assumption.
  replace (scaled_points x' y' (rows (rescaled (x / x') (y / y') m))) with (scaled_points x y (rows m)); [reflexivity|]. unfold scaled_points, rescaled. cbn [rows]. rewrite map_map. apply map_ext. intros r. cbn [nth].
  rewrite !(fmul_fmul _ (x / x') x' x), !(fmul_fmul _ (y / y') y' y); try reflexivity; try assumption; try (now apply Rdiv_lt_0_compat); field; lra.
Qed.
Lemma load_if_units m dc q q' x x' : volts (q_v_fmt q) = Some x -> volts (q_v_fmt q') = Some x' ->
  q_v_multiplier q' = q_v_multiplier q -> q_sigma q' = q_sigma q -> q_vmax q' = q_vmax q -> q_npts q' = q_npts q -> q_rseries q' = q_rseries q ->
  load_if argsort (rescaled (x / x') 1 m) dc q' = load_if argsort m dc q.
Proof.
  intros U U' E1 E2 E3 E4 E5. pose proof (volts_pos _ _ U). pose proof (volts_pos _ _ U'). unfold load_if. rewrite E1, E2, E3, E4, E5, !vfmt_volts, U, U'. cbn [rescaled ncols]. cbn [bind].
  destruct (Nat.eqb (ncols m) 2); [|reflexivity]. cbn [guard bind].
  replace (scale_first x' (rescaled (x / x') 1 m)) with (scale_first x m); [reflexivity|]. unfold scale_first, rescaled. cbn [ncols rows]. f_equal. rewrite map_map. apply map_ext. intros r. cbn [nth].
  rewrite fmul_one. rewrite (fmul_fmul _ (x / x') x' x); [reflexivity|now apply Rdiv_lt_0_compat|assumption|field; lra].
Qed.

Lemma dciv_units m o u u' w w' x x' y y' : volts u = Some x -> volts u' = Some x' -> amperes w = Some y -> amperes w' = Some y' ->
  dciv_curve minimize savgol argsort (rescaled (x / x') (y / y') m) (iv_options (with_units o u' w')) = dciv_curve minimize savgol argsort m (iv_options (with_units o u w)).
Proof.
  intros U U' W W'. assert (L : loaded argsort (rescaled (x / x') (y / y') m) (iv_options (with_units o u' w')) = loaded argsort m (iv_options (with_units o u w))).
  { unfold loaded. cbn [iv_options with_units p_v_fmt p_i_fmt o_v_fmt o_i_fmt]. rewrite (load_units m u u' w w' x x' y y') by assumption. reflexivity. }
  unfold dciv_curve. rewrite L. reflexivity.
Qed.
Lemma iv_units m dc o u u' w w' x x' y y' : volts u = Some x -> volts u' = Some x' -> amperes w = Some y -> amperes w' = Some y' ->
  iv_curve savgol argsort (rescaled (x / x') (y / y') m) dc (iv_options (with_units o u' w')) = iv_curve savgol argsort m dc (iv_options (with_units o u w)).
Proof.
  intros U U' W W'. assert (L : loaded argsort (rescaled (x / x') (y / y') m) (iv_options (with_units o u' w')) = loaded argsort m (iv_options (with_units o u w))).
  { unfold loaded. cbn [iv_options with_units p_v_fmt p_i_fmt o_v_fmt o_i_fmt]. rewrite (load_units m u u' w w' x x' y y') by assumption. reflexivity. }
  unfold iv_curve. rewrite L. reflexivity.
Qed.
Lemma if_units m dc o u u' w w' x x' : volts u = Some x -> volts u' = Some x' ->
  load_if argsort (rescaled (x / x') 1 m) dc (if_options (with_units o u' w')) = load_if argsort m dc (if_options (with_units o u w)).
Proof. intros U U'. apply load_if_units; try assumption; reflexivity. Qed.
Lemma dc_units m f o u u' w w' x x' y y' : volts u = Some x -> volts u' = Some x' -> amperes w = Some y -> amperes w' = Some y' ->
  DC (rescaled (x / x') (y / y') m) (option_map (rescaled (x / x') 1) f) (with_units o u' w') = DC m f (with_units o u w).
Proof.
  intros U U' W W'. unfold dc_data. rewrite (dciv_units m o u u' w w' x x' y y') by assumption. destruct (dciv_curve _ _ _ m _) as [[[V I] dc]|e]; [|reflexivity]. cbn [bind].
  cbn [with_units o_area o_vleak o_v_smear]. destruct (dc_summary _ _ _ _ _); [|reflexivity]. cbn [bind]. destruct (respfn_from_iv _ _ _ _ _ (resp_options None)); [|reflexivity]. cbn [bind]. destruct (respfn_from_iv _ _ _ _ _ (resp_options _)); [|reflexivity]. cbn [bind].
  destruct f as [f|]; [|reflexivity]. cbn [option_map]. unfold dcif_data. rewrite (if_units f dc o u u' w w' x x') by assumption. reflexivity.
Qed.
Lemma pumped_units m d hot cold o u u' w w' x x' y y' : volts u = Some x -> volts u' = Some x' -> amperes w = Some y -> amperes w' = Some y' ->
  PUMPED (rescaled (x / x') (y / y') m) d (option_map (rescaled (x / x') 1) hot) (option_map (rescaled (x / x') 1) cold) (with_units o u' w') = PUMPED m d hot cold (with_units o u w).
Proof.
  intros U U' W W'. unfold pumped_data. rewrite (iv_units m (d_dc d) o u u' w w' x x' y y') by assumption. cbn [with_units o_freq o_analyze_iv o_analyze_if].
  destruct (o_freq o) as [f|]; [|reflexivity]. cbn [bind]. destruct (quot f _); [|reflexivity]. cbn [bind]. destruct (iv_curve _ _ m _ _) as [[V I]|]; [|reflexivity]. cbn [bind]. destruct (slope_span_n _ _ _ _); [|reflexivity]. cbn [bind].
  match goal with |- bind ?a _ = bind ?b _ => change b with a; destruct a; [|reflexivity] end. cbn [bind].
  destruct hot as [h|]; [|reflexivity]. destruct cold as [c|]; [|reflexivity]. cbn [option_map]. destruct (o_analyze_if o); [|reflexivity].
  unfold if_data. rewrite !(if_units _ (d_dc d) o u u' w w' x x') by assumption. reflexivity.
Qed.

(** ** Direction of a sweep *)
Lemma filter_reversed {A} (f : A -> bool) l : filter f (rev l) = rev (filter f l).
Proof. induction l as [|a l IH]; [reflexivity|]. cbn [rev filter]. rewrite filter_app, IH. cbn [filter]. destruct (f a); [reflexivity|now rewrite app_nil_r]. Qed.
Lemma measured_rev v i : length i = length v -> rev (measured v i) = measured (rev v) (rev i).
Proof.
  intros L. unfold measured. rewrite <- map_rev, rev_length. apply (list_ext _ _ []); [now rewrite !map_length, rev_length, !seq_length|]. rewrite map_length, rev_length, seq_length. intros k K.
  rewrite (nth_map_seq _ _ k) by assumption. rewrite (nth_indep _ _ ((fun k => [FV (nth k v 0); FV (nth k i 0)]) 0%nat)) by (rewrite map_length, rev_length, seq_length; assumption).
  rewrite (map_nth (fun k => [FV (nth k v 0); FV (nth k i 0)])). rewrite rev_nth by now rewrite seq_length. rewrite seq_length, seq_nth by lia. rewrite !rev_nth by lia. rewrite L. replace (0 + (length v - S k))%nat with (length v - S k)%nat by lia. reflexivity.
Qed.
Lemma load_falling fv fi uv ui v i : sorting argsort -> volts fv = Some uv -> amperes fi = Some ui -> length i = length v -> (2 <= length v)%nat -> rises v 0 (length v - 1) ->
  load_iv argsort {| ncols := 2; rows := rev (measured v i) |} fv fi = Ok (map (fun a => FV (a * uv)) v, map (fun a => FV (a * ui)) i).
Proof.
  intros SO HV HI L N R. rewrite <- (load_rising argsort fv fi uv ui v i) by assumption. pose proof (volts_pos _ _ HV) as UP. set (n := length v) in *.
  set (P := map (fun k => (FV (nth k v 0 * uv), FV (nth k i 0 * ui))) (seq 0 n)).
  set (m := {| ncols := 2; rows := measured v i |}). set (m' := {| ncols := 2; rows := rev (measured v i) |}).
  assert (EP : filter both_numbers (scaled_points uv ui (rows m)) = P) by apply sweep_pairs.
  assert (EP' : filter both_numbers (scaled_points uv ui (rows m')) = rev P). { unfold m'. cbn [rows]. unfold scaled_points. rewrite map_rev, filter_reversed. f_equal. exact EP. }
  assert (LP : length P = n) by (unfold P; now rewrite map_length, seq_length).
  assert (NP : Forall number (map fst P)). { unfold P. rewrite map_map, Forall_forall. intros x Hx. apply in_map_iff in Hx. destruct Hx as [k [<- _]]. reflexivity. }
  assert (NEP : P <> []) by (intros E; rewrite E in LP; simpl in LP; lia).
  assert (MONO : forall x y, x < y -> x * uv < y * uv) by (intros; nra).
  assert (NTH : forall k, (k < n)%nat -> nth k (map fst P) FNaN = FV (nth k v 0 * uv)). { intros k K. unfold P. rewrite map_map. rewrite (nth_map_seq _ _ k) by assumption. reflexivity. }
  assert (LE : forall j k, (j <= k)%nat -> (k < n)%nat -> nth j v 0 <= nth k v 0). { intros j k JK K. destruct (Nat.eq_dec j k) as [->|]; [lra|]. left. apply R; lia. }
  assert (RN : forall k, (k < n)%nat -> nth k (map fst (rev P)) FNaN = FV (nth (n - S k) v 0 * uv)). { intros k K. rewrite map_rev, rev_nth by (rewrite map_length; lia). rewrite map_length, LP. apply NTH. lia. }
  assert (FM : first_min (map fst P) 0).
  { split; [rewrite map_length; lia|]. rewrite map_length, LP. split; [|intros; lia]. intros j Hj. rewrite !NTH by lia. apply fle_v. apply Rmult_le_compat_r; [lra|]. apply LE; lia. }
  assert (FL : first_max (map fst P) (n - 1)).
  { split; [rewrite map_length; lia|]. rewrite map_length, LP. split; intros j Hj; rewrite !NTH by lia; [apply fle_v, Rmult_le_compat_r; [lra|apply LE; lia]|apply flt_spec_v, MONO, R; lia]. }
  assert (FM' : first_min (map fst (rev P)) (n - 1)).
  { split; [rewrite map_length, rev_length; lia|]. rewrite map_length, rev_length, LP. split; intros j Hj; rewrite !RN by lia; [apply fle_v, Rmult_le_compat_r; [lra|apply LE; lia]|apply flt_spec_v, MONO, R; lia]. }
  assert (FL' : first_max (map fst (rev P)) 0).
  { split; [rewrite map_length, rev_length; lia|]. rewrite map_length, rev_length, LP. split; intros j Hj; [|lia]. rewrite !RN by lia. apply fle_v, Rmult_le_compat_r; [lra|apply LE; lia]. }
  assert (ET : take_one_pass (map fst P) (map snd P) = Ok (map fst P, map snd P)).
  { destruct (one_pass P NEP NP) as [lo [hi [M1 [M2 H]]]]. pose proof (first_min_unique _ _ _ M1 FM). pose proof (first_max_unique _ _ _ M2 FL). subst lo hi. rewrite LP in H.
    destruct H as [[E1 [E2 E]]|[[_ [E1 [E2 E]]]|[[LT _]|[LT [NQ _]]]]]; [assumption|lia|lia|congruence]. }
  assert (NEP' : rev P <> []) by (intros E; apply (f_equal (@length _)) in E; rewrite rev_length, LP in E; simpl in E; lia).
  assert (NP' : Forall number (map fst (rev P))). { rewrite map_rev. now apply Forall_rev. }
  assert (ET' : take_one_pass (map fst (rev P)) (map snd (rev P)) = Ok (map fst P, map snd P)).
  { destruct (one_pass (rev P) NEP' NP') as [lo [hi [M1 [M2 H]]]]. pose proof (first_min_unique _ _ _ M1 FM'). pose proof (first_max_unique _ _ _ M2 FL'). subst lo hi. rewrite rev_length, LP in H. rewrite rev_involutive in H.
    destruct H as [[E1 [E2 E]]|[[_ [E1 [E2 E]]]|[[LT [NQ _]]|[LT _]]]]; [lia|assumption|congruence|lia]. }
  rewrite (load_eq argsort m fv fi uv ui eq_refl HV HI), (load_eq argsort m' fv fi uv ui eq_refl HV HI), EP, EP', ET, ET'. reflexivity.
Qed.
Lemma load_direction fv fi v i : sorting argsort -> length i = length v -> (2 <= length v)%nat -> rises v 0 (length v - 1) ->
  load_iv argsort {| ncols := 2; rows := rev (measured v i) |} fv fi = load_iv argsort {| ncols := 2; rows := measured v i |} fv fi.
Proof.
  intros S L N R. destruct (volts fv) as [uv|] eqn:U; [destruct (amperes fi) as [ui|] eqn:W|].
  - rewrite (load_falling fv fi uv ui), (load_rising argsort fv fi uv ui) by assumption. reflexivity.
  - unfold load_iv. cbn [ncols Nat.eqb guard bind]. unfold column. cbn. rewrite vfmt_volts, ifmt_amperes, U, W. reflexivity.
  - unfold load_iv. cbn [ncols Nat.eqb guard bind]. unfold column. cbn. rewrite vfmt_volts, U. reflexivity.
Qed.
Lemma dc_direction v i f o : sorting argsort -> length i = length v -> (2 <= length v)%nat -> rises v 0 (length v - 1) ->
  DC (backwards {| ncols := 2; rows := measured v i |}) f o = DC {| ncols := 2; rows := measured v i |} f o.
Proof. intros S L N R. unfold backwards. cbn [ncols rows]. unfold dc_data, dciv_curve, loaded. rewrite load_direction by assumption. reflexivity. Qed.
Lemma pumped_direction v i d hot cold o : sorting argsort -> length i = length v -> (2 <= length v)%nat -> rises v 0 (length v - 1) ->
  PUMPED (backwards {| ncols := 2; rows := measured v i |}) d hot cold o = PUMPED {| ncols := 2; rows := measured v i |} d hot cold o.
Proof. intros S L N R. unfold backwards. cbn [ncols rows]. unfold pumped_data, iv_curve, loaded. rewrite load_direction by assumption. reflexivity. Qed.

(** ** Order of the rows of IF data *)
Lemma clean_perm x y x' y' : sorting argsort -> length x = length y -> length x' = length y' -> Permutation (good_points x y) (good_points x' y') -> NoDup (map fst (good_points x y)) ->
  clean_xy argsort x y = clean_xy argsort x' y'.
Proof.
  intros S L L' P ND. rewrite (clean_eq argsort x y S L), (clean_eq argsort x' y' S L').
  set (g := good_points x y) in *. set (g' := good_points x' y') in *.
  replace (reorder (argsort (map fst g')) g') with (reorder (argsort (map fst g)) g); [reflexivity|].
  assert (Q : Permutation (reorder (argsort (map fst g)) g) g). { apply reorder_perm. rewrite <- (map_length fst g). apply S. }
  assert (Q' : Permutation (reorder (argsort (map fst g')) g') g'). { apply reorder_perm. rewrite <- (map_length fst g'). apply S. }
  assert (NG : Forall (fun p => number (fst p)) g). { eapply Forall_impl; [|apply good_numbers]. cbn. tauto. }
  assert (NG' : Forall (fun p => number (fst p)) g'). { eapply Forall_impl; [|apply good_numbers]. cbn. tauto. }
  assert (SS : forall h, Forall (fun p => number (fst p)) h -> StronglySorted (fun a b : fl * fl => fle (fst a) (fst b) = true) (reorder (argsort (map fst h)) h)).
  { intros h NH. assert (T : StronglySorted (fun a b => fle a b = true) (map fst (reorder (argsort (map fst h)) h))).
    { rewrite reorder_fst. apply sorted_fle; [|apply S]. rewrite Forall_forall. intros a A. apply in_map_iff in A. destruct A as [k [<- K]].
      pose proof (idx_range argsort (map fst h) S) as IR. rewrite Forall_forall in IR. specialize (IR k K). rewrite Forall_forall in NH. assert (I : In (nth k (map fst h) FNaN) (map fst h)) by now apply nth_In.
      apply in_map_iff in I. destruct I as [q [<- I]]. now apply NH. }
    clear - T. induction (reorder (argsort (map fst h)) h) as [|a l IH]; [constructor|]. cbn [map] in T. inversion T; subst. constructor; [now apply IH|]. rewrite Forall_forall in *. intros b B. apply H2. now apply in_map. }
  apply (sorted_unique (fun a b : fl * fl => fle (fst a) (fst b) = true)); [|now apply SS|now apply SS|].
  - intros a b A B AB BA. pose proof (fle_antisym _ _ AB BA) as E. apply (Permutation_in _ Q) in A. apply (Permutation_in _ Q) in B.
    clear - ND A B E. induction g as [|c g IH]; [destruct A|]. cbn [map] in ND. inversion ND; subst. destruct A as [->|A], B as [->|B]; [reflexivity| | |now apply IH].
    + exfalso. apply H1. rewrite E. now apply in_map.
    + exfalso. apply H1. rewrite <- E. now apply in_map.
  - eapply Permutation_trans; [exact Q|]. eapply Permutation_trans; [exact P|]. now apply Permutation_sym.
Qed.
Definition row_point (u : R) (r : list fl) : fl * fl := (fmul (nth 0 r FNaN) (FV u), nth 1 r FNaN).
Definition good_row (r : list fl) : bool := negb (fisnan (nth 0 r FNaN)) && negb (fisnan (nth 1 r FNaN)).
Lemma good_raw u m : 0 < u -> good_points (raw_v u m) (raw_p m) = map (row_point u) (filter good_row (rows m)).
Proof.
  intros U. unfold good_points, raw_v, raw_p. induction (rows m) as [|r l IH]; [reflexivity|]. cbn [map List.combine filter]. rewrite IH. cbn [fst snd].
  replace (fisnan (fmul (nth 0 r FNaN) (FV u))) with (fisnan (nth 0 r FNaN)) by (symmetry; now apply (mul_nan u)). fold (good_row r). destruct (good_row r); reflexivity.
Qed.
Lemma filter_perm {A} (f : A -> bool) l l' : Permutation l l' -> Permutation (filter f l) (filter f l').
Proof.
  induction 1 as [|a l l' P IH|a b l|l l' l'' P1 IH1 P2 IH2]; cbn [filter]; [constructor|destruct (f a); [now constructor|assumption]|destruct (f a), (f b); try apply Permutation_refl; constructor|]. eapply Permutation_trans; eassumption.
Qed.
Lemma fmul_inj u a b : 0 < u -> fmul a (FV u) = fmul b (FV u) -> a = b.
Proof.
  intros U E. assert (K : forall a, a = fmul (fmul a (FV u)) (FV (/ u))). { intros c. rewrite (fmul_fmul c u (/ u) 1); [now rewrite fmul_one|assumption|now apply Rinv_0_lt_compat|field; lra]. }
  rewrite (K a), (K b), E. reflexivity.
Qed.
Lemma load_if_order m m' dc q : sorting argsort -> ncols m' = ncols m -> Permutation (rows m) (rows m') -> NoDup (valid_voltages m) -> load_if argsort m' dc q = load_if argsort m dc q.
Proof.
  intros S NC P ND. destruct (Nat.eq_dec (ncols m) 2) as [E2|N2]; [|unfold load_if; rewrite NC; apply Nat.eqb_neq in N2; rewrite N2; reflexivity].
  destruct (volts (q_v_fmt q)) as [u|] eqn:U.
  - pose proof (volts_pos _ _ U) as UP. rewrite (load_if_eq argsort m' dc q u), (load_if_eq argsort m dc q u); try assumption; [|congruence].
    rewrite (clean_perm (raw_v u m) (raw_p m) (raw_v u m') (raw_p m')); [reflexivity|assumption|unfold raw_v, raw_p; now rewrite !map_length|unfold raw_v, raw_p; now rewrite !map_length| |].
    + rewrite !good_raw by assumption. apply Permutation_map. now apply filter_perm.
    + rewrite good_raw by assumption. rewrite map_map. cbn [row_point fst]. unfold valid_voltages in ND. fold good_row in ND. change (fun r => negb (fisnan (nth 0 r FNaN)) && negb (fisnan (nth 1 r FNaN))) with good_row in ND.
      rewrite <- (map_map (fun r => nth 0 r FNaN) (fun a => fmul a (FV u))). clear - ND UP. induction ND as [|a l NI ND IH]; [constructor|]. cbn [map]. constructor; [|assumption]. intros K. apply in_map_iff in K. destruct K as [b [K B]]. apply fmul_inj in K; [|assumption]. congruence.
  - unfold load_if. rewrite NC, E2. cbn [Nat.eqb guard bind]. rewrite vfmt_volts, U. reflexivity.
Qed.
Lemma dc_if_order m f f' o : sorting argsort -> ncols f' = ncols f -> Permutation (rows f) (rows f') -> NoDup (valid_voltages f) -> DC m (Some f') o = DC m (Some f) o.
Proof. intros S NC P ND. unfold dc_data, dcif_data. destruct (dciv_curve _ _ _ _ _) as [[[V I] dc]|]; [|reflexivity]. cbn [bind]. rewrite (load_if_order f f') by assumption. reflexivity. Qed.
Lemma pumped_if_order m d hot cold hot' cold' o : sorting argsort -> ncols hot' = ncols hot -> Permutation (rows hot) (rows hot') -> NoDup (valid_voltages hot) ->
  ncols cold' = ncols cold -> Permutation (rows cold) (rows cold') -> NoDup (valid_voltages cold) -> PUMPED m d (Some hot') (Some cold') o = PUMPED m d (Some hot) (Some cold) o.
Proof. intros S NC P ND NC' P' ND'. unfold pumped_data, if_data. rewrite (load_if_order hot hot'), (load_if_order cold cold') by assumption. reflexivity. Qed.
End Oracles.
