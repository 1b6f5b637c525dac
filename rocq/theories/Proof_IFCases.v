(** Proofs about whole IF measurements, continued, and concrete cases. *)
From Coq Require Import List ZArith Bool Lia Reals Lra String.
From Verif Require Import Base Model_QtCurrent Proof_Circuit Proof_IVModels Float NumPy Proof_NumPy Spec_CleanData Proof_CleanData Model_CleanData Model_MathFn Spec_RespFn Model_RespFn Proof_RespFn2 Spec_IVData Model_IVData Proof_IVLoad Proof_IVData Proof_IVCurve Spec_IFData Model_IFData Proof_IFNoise Proof_IFLoad Proof_IFShot Proof_IFResponse Spec_Case Proof_CaseIF.
Import ListNotations.
Open Scope R_scope.
Local Notation length := List.length.
Local Notation rising := Spec_RespFn.increasing.
Section Oracle.
Variable savgol : list R -> Z -> Z -> list R.
(** Two analyses of the same powers, in any units, with any positive calibration. *)
Lemma if_any_calibration s hot cold dc d d' q f k v ph pc tn gain idx meta v' ph' pc' tn' gain' idx' meta' : sorting s -> 0 < k -> q_freq q = Some f -> 0 < f -> 0 < q_t_hot q -> 0 < q_t_cold q ->
  if_data savgol s hot cold dc d q = Ok (v, ph, pc, tn, gain, idx, meta) ->
  if_data savgol s (scaled_file k hot) (scaled_file k cold) dc d' q = Ok (v', ph', pc', tn', gain', idx', meta') ->
  0 < if_corr meta -> 0 < if_corr meta' ->
  v' = v /\ tn' = tn /\ idx' = idx /\ gain' = map (fmul (FV (k * if_corr meta' / if_corr meta))) gain.
Proof.
  intros S K EF PF PH PC H H' C C'. apply if_data_inv in H; [|assumption]. destruct H as [h [c [EH [EC [LV [LH [LC [E1 [E2 [FT _]]]]]]]]]].
  apply if_data_inv in H'; [|assumption]. destruct H' as [h' [c' [EH' [EC' [_ [_ [_ [E1' [E2' [FT' _]]]]]]]]]].
  rewrite load_scaled, EH in EH' by assumption. rewrite load_scaled, EC in EC' by assumption. cbn [rmap fst snd] in EH', EC'. injection EH' as <- <-. injection EC' as <-. split; [reflexivity|].
  set (m := k * if_corr meta' / if_corr meta). assert (M : 0 < m) by (unfold m; apply Rdiv_lt_0_compat; [now apply Rmult_lt_0_compat|assumption]).
  assert (X : forall l, map (fun a => a * if_corr meta') (map (fun a => a * k) l) = map (Rmult m) (map (fun a => a * if_corr meta) l)) by (intros l; rewrite !map_map; apply map_ext; intros; unfold m; field; lra).
  rewrite E1', E2', !X, <- E1, <- E2 in FT'. rewrite (analysis_scaled v ph pc (dc_vgap dc) q f) in FT' by (try assumption; rewrite ?E1, ?E2, ?map_length; congruence). rewrite FT in FT'. cbn [rmap] in FT'. injection FT' as <- <- <-. auto.
Qed.
Lemma if_lengths s hot cold dc d q v ph pc tn gain idx meta : sorting s -> if_data savgol s hot cold dc d q = Ok (v, ph, pc, tn, gain, idx, meta) ->
  length v = q_npts q /\ length ph = q_npts q /\ length pc = q_npts q /\ find_tn_gain v ph v pc (dc_vgap dc) q = Ok (tn, gain, idx) /\ v <> [].
Proof.
  intros S H. apply if_data_inv in H; [|assumption]. destruct H as [h [c [_ [_ [LV [LH [LC [E1 [E2 [FT [_ [top [AM _]]]]]]]]]]]]]. rewrite E1, E2, !map_length. rewrite <- E1, <- E2. repeat (split; [assumption|]). intros ->. discriminate.
Qed.
Lemma if_bounds s hot cold dc d q f v ph pc tn gain idx meta k : sorting s -> q_freq q = Some f -> 0 < f -> 0 < q_t_cold q < q_t_hot q ->
  if_data savgol s hot cold dc d q = Ok (v, ph, pc, tn, gain, idx, meta) -> (k < q_npts q)%nat ->
  let Th := callen_welton (f * 10 ^ 9) (q_t_hot q) in let Tc := callen_welton (f * 10 ^ 9) (q_t_cold q) in
  length tn = q_npts q /\ length gain = q_npts q /\
  (nth k tn FPInf = FNaN <-> nth k pc 0 = 0 /\ 0 <= nth k ph 0) /\
  (nth k tn FPInf <> FNaN -> exists t, nth k tn FPInf = FV t /\ - Tc < t <= (Th - Tc) * 10 ^ 10 - Tc) /\
  nth k gain FPInf = FV ((nth k ph 0 - nth k pc 0) / (Th - Tc)).
Proof.
  intros S EF PF [PC LT] H K Th Tc. apply if_lengths in H; [|assumption]. destruct H as [LV [LH [LC [FT _]]]]. rewrite <- LV in *. apply (analysis_bounds v ph pc (dc_vgap dc) q f) with (idx := idx); try assumption; lra.
Qed.
Lemma if_requested s hot cold dc d q f vb v ph pc tn gain idx meta : sorting s -> q_freq q = Some f -> 0 < f -> 0 < q_t_hot q -> 0 < q_t_cold q ->
  if_data savgol s hot cold dc d q = Ok (v, ph, pc, tn, gain, idx, meta) -> q_vbest q = Some vb -> smallest (map (fun a => Rabs (a * dc_vgap dc - vb)) v) idx.
Proof.
  intros S EF PF PH PC H E. apply if_lengths in H; [|assumption]. destruct H as [LV [LH [LC [FT NE]]]].
  destruct (best_requested v ph pc (dc_vgap dc) q f EF PF PH PC ltac:(congruence) ltac:(congruence) vb E NE) as [a [b [i [X Y]]]]. rewrite FT in X. injection X as <- <- <-. assumption.
Qed.
Lemma if_max_gain s hot cold dc d q f v ph pc tn gain idx meta : sorting s -> q_freq q = Some f -> 0 < f -> 0 < q_t_hot q -> 0 < q_t_cold q -> q_t_cold q <> q_t_hot q ->
  if_data savgol s hot cold dc d q = Ok (v, ph, pc, tn, gain, idx, meta) -> q_vbest q = None -> same_letters (q_best_pt q) "max gain" ->
  exists g, gain = map FV g /\ largest g idx.
Proof.
  intros S EF PF PH PC N H E B. apply if_case in B. apply if_lengths in H; [|assumption]. destruct H as [LV [LH [LC [FT NE]]]].
  destruct (best_gain v ph pc (dc_vgap dc) q f EF PF PH PC ltac:(congruence) ltac:(congruence) E B NE N) as [a [b [i [X Y]]]]. rewrite FT in X. injection X as <- -> <-. exists b. auto.
Qed.
Lemma if_min_tn s hot cold dc d q f v ph pc tn gain idx meta : sorting s -> q_freq q = Some f -> 0 < f -> 0 < q_t_cold q < q_t_hot q ->
  if_data savgol s hot cold dc d q = Ok (v, ph, pc, tn, gain, idx, meta) -> q_vbest q = None -> same_letters (q_best_pt q) "min tn" ->
  exists t, (idx < length tn)%nat /\ nth idx tn FNaN = FV t /\ forall u, In (FV u) tn -> t <= u.
Proof.
  intros S EF PF [PC LT] H E B. apply if_case in B. apply if_lengths in H; [|assumption]. destruct H as [LV [LH [LC [FT NE]]]]. assert (PH : 0 < q_t_hot q) by lra.
  destruct (Forall_Exists_dec (fun k => nth k pc 0 = 0 /\ 0 <= nth k ph 0)) with (l := seq 0 (length v)) as [A|A].
  - intros k. destruct (Req_EM_T (nth k pc 0) 0); [|right; tauto]. destruct (Rle_dec 0 (nth k ph 0)); [left; tauto|right; tauto].
  - exfalso. rewrite (best_tn_none v ph pc (dc_vgap dc) q f) in FT; try assumption; try congruence. intros k K. rewrite Forall_forall in A. apply A. apply in_seq. lia.
  - apply Exists_exists in A. destruct A as [k [K A]]. apply in_seq in K.
    destruct (best_tn v ph pc (dc_vgap dc) q f EF PF PH PC ltac:(congruence) ltac:(congruence) E B LT) as [a [b [i [t [X Y]]]]]; [exists k; split; [lia|assumption]|].
    rewrite FT in X. injection X as <- <- <-. exists t. exact Y.
Qed.
Lemma best_unknown_name v h c vgap q f : q_freq q = Some f -> 0 < f -> 0 < q_t_hot q -> 0 < q_t_cold q -> length h = length v -> length c = length v ->
  q_vbest q = None -> ~ same_letters (q_best_pt q) "max gain" -> ~ same_letters (q_best_pt q) "min tn" -> find_tn_gain v h v c vgap q = Err ValueError.
Proof. intros EF PF PH PC LH LC E B1 B2. rewrite if_case in B1, B2. exact (best_unknown v h c vgap q f EF PF PH PC LH LC E B1 B2). Qed.
Lemma best_names : same_letters "Max Gain" "max gain" /\ same_letters "MIN TN" "min tn" /\ ~ same_letters "best" "max gain" /\ ~ same_letters "best" "min tn".
Proof. rewrite !if_case. repeat split; try reflexivity; discriminate. Qed.
Lemma if_unknown s hot cold dc d q f r : sorting s -> q_freq q = Some f -> 0 < f -> 0 < q_t_hot q -> 0 < q_t_cold q ->
  q_vbest q = None -> ~ same_letters (q_best_pt q) "max gain" -> ~ same_letters (q_best_pt q) "min tn" -> if_data savgol s hot cold dc d q <> Ok r.
Proof.
  intros S EF PF PH PC E B1 B2 H. rewrite if_case in B1, B2. destruct r as [[[[[[v ph] pc] tn] gain] idx] meta]. apply if_lengths in H; [|assumption]. destruct H as [LV [LH [LC [FT NE]]]]. rewrite (best_unknown v ph pc (dc_vgap dc) q f) in FT by (assumption || congruence). discriminate.
Qed.
(** Nothing in the way: files with increasing voltages, a given calibration. *)
Lemma if_total s dc d q f u v p r : sorting s -> q_freq q = Some f -> 0 < f -> 0 < q_t_hot q -> 0 < q_t_cold q -> volts (q_v_fmt q) = Some u ->
  length p = length v -> (2 <= length v)%nat -> rising v -> q_rseries q = None -> q_sigma q = None -> 0 < q_v_multiplier q -> 0 < dc_vgap dc -> (1 <= q_npts q)%nat -> 0 < r ->
  (exists vb, q_vbest q = Some vb) -> let cold := {| ncols := 2; rows := measured v p |} in
  exists V ph pc tn gain idx meta, if_data savgol s (scaled_file r cold) cold dc (Some d) q = Ok (V, ph, pc, tn, gain, idx, meta).
Proof.
  intros S EF PF PH PC U L N RV RS SG M G NP R0 [vb VB] cold. destruct (load_total s dc q u v p S U L N RV RS SG M G) as [V [P E]]. fold cold in E. rewrite if_data_eq, load_scaled, E by assumption. cbn [rmap bind fst snd calibration].
  pose proof E as GR. apply load_grid in GR; [|assumption]. destruct GR as [_ [EV LP]]. assert (LV : length V = q_npts q) by (rewrite EV; apply linspace_length). assert (NE : V <> []) by (intros ->; cbn in LV; lia).
  destruct (best_requested V (map (fun a => a * if_corr d) (map (fun a => a * r) P)) (map (fun a => a * if_corr d) P) (dc_vgap dc) q f EF PF PH PC ltac:(rewrite !map_length; congruence) ltac:(rewrite !map_length; congruence) vb VB NE) as [a [b [i [X _]]]].
  rewrite X. cbn [bind]. destruct (amax V) as [top|] eqn:AM; [|destruct V; [contradiction|discriminate]]. cbn [bind]. do 7 eexists. reflexivity.
Qed.

(** ** Calibration *)
Lemma dcif_inv s m dc q v p meta : sorting s -> dcif_data savgol s m dc q = Ok (v, p, meta) ->
  exists p0, load_if s m dc q = Ok (v, p0) /\ p = map (fun a => a * if_corr meta) p0 /\ find_if_noise savgol v p0 dc (q_vshot q) = Ok (if_noise meta, if_corr meta, snd (if_shot meta), if_fit meta) /\ fst (if_shot meta) = v.
Proof.
  intros S. unfold dcif_data. destruct (load_if s m dc q) as [[v0 p0]|]; [|discriminate]. cbn [bind]. destruct (find_if_noise _ _ _ _ _) as [[[[n c] l] fit]|] eqn:F; [|discriminate]. cbn [bind]. destruct (amax v0); [|discriminate]. cbn [bind]. intros H. injection H as <- <- <-. exists p0. auto.
Qed.
Lemma grid_top b n top : 0 < b -> (2 <= n)%nat -> amax (linspace 0 b n) = Ok top -> top = b.
Proof.
  intros B N H. apply amax_ok in H. destruct H as [I M]. apply linspace_range in I; [|assumption|assumption].
  specialize (M (nth (n - 1) (linspace 0 b n) 0) ltac:(apply nth_In; rewrite linspace_length; lia)). rewrite linspace_last in M by assumption. lra.
Qed.
Lemma top_voltage (v : list R) g m n top : 0 < g -> 0 < m -> (2 <= n)%nat -> v = linspace 0 (m / g) n -> amax v = Ok top -> top * g = m.
Proof. intros G M N -> H. apply grid_top in H; [|now apply Rdiv_lt_0_compat|assumption]. rewrite H. field. lra. Qed.
Lemma dcif_top s m dc q v p meta : sorting s -> dcif_data savgol s m dc q = Ok (v, p, meta) -> 0 < dc_vgap dc -> 0 < q_vmax q -> (2 <= q_npts q)%nat -> if_vmax meta = q_vmax q.
Proof.
  intros S H G VM NP. unfold dcif_data in H. destruct (load_if s m dc q) as [[v0 p0]|] eqn:E; [|discriminate]. cbn [bind] in H. destruct (find_if_noise _ _ _ _ _) as [[[[n c] l] fit]|] eqn:F; [|discriminate]. cbn [bind] in H. destruct (amax v0) eqn:AM; [|discriminate]. cbn [bind] in H.
  injection H as <- <- <-. cbn [if_vmax]. apply load_grid in E; [|assumption]. destruct E as [_ [EV _]]. now apply (top_voltage v0 (dc_vgap dc) (q_vmax q) (q_npts q)).
Qed.
Lemma shot_calibration x y dc s n corr line fit : length x = length y -> ranges_of s <> [] -> find_if_noise savgol x y dc (Some s) = Ok (n, corr, line, fit) ->
  exists a b, best_line (fit_samples (ranges_of s) (dc_vgap dc) x y) a b /\ fit_samples (ranges_of s) (dc_vgap dc) x y <> [] /\ dc_vgap dc <> 0 /\ a <> 0 /\ corr * a = 5800 * dc_vgap dc /\
    line = map (fun t => (a * t + b) * corr) x /\ (rising x -> joined x line (nth 0 line 0) (nth (length x - 1) line 0) (dc_vint dc / dc_vgap dc) n) /\ (fit = true <-> 0 < n < 50).
Proof.
  intros L NE H. rewrite noise_eq in H by assumption. apply calibrate_ok in H. destruct H as [NP [G [LX [a [b [BL [A [C [LI [N F]]]]]]]]]]. exists a, b. do 4 (split; [assumption|]). split; [rewrite C; field; assumption|]. split; [assumption|]. split; [|assumption].
  intros RX. rewrite N. apply interp_joined; [assumption| |assumption]. rewrite LI. apply map_length.
Qed.
Lemma dcif_calibrated s m dc q vs v p meta : sorting s -> dcif_data savgol s m dc q = Ok (v, p, meta) -> q_vshot q = Some vs -> ranges_of vs <> [] -> 0 < dc_vgap dc -> 0 < q_vmax q -> (2 <= q_npts q)%nat ->
  exists p0 a b, load_if s m dc q = Ok (v, p0) /\ p = map (fun a => a * if_corr meta) p0 /\
    best_line (fit_samples (ranges_of vs) (dc_vgap dc) v p0) a b /\ fit_samples (ranges_of vs) (dc_vgap dc) v p0 <> [] /\ a <> 0 /\
    if_corr meta * a = 5800 * dc_vgap dc /\ if_shot meta = (v, map (fun t => (a * t + b) * if_corr meta) v) /\
    joined v (snd (if_shot meta)) (nth 0 (snd (if_shot meta)) 0) (nth (length v - 1) (snd (if_shot meta)) 0) (dc_vint dc / dc_vgap dc) (if_noise meta) /\
    (if_fit meta = true <-> 0 < if_noise meta < 50) /\ if_vmax meta = q_vmax q.
Proof.
  intros S H VS NE G VM NP. pose proof (dcif_top s m dc q v p meta S H G VM NP) as TOP. apply dcif_inv in H; [|assumption]. destruct H as [p0 [E [EP [F FS]]]]. rewrite VS in F. pose proof E as GR. apply load_grid in GR; [|assumption]. destruct GR as [_ [EV LP]].
  assert (LV : length v = q_npts q) by (rewrite EV; apply linspace_length).
  apply shot_calibration in F; [|congruence|assumption]. destruct F as [a [b [BL [NF [_ [A [C [LI [J FI]]]]]]]]]. exists p0, a, b. do 6 (split; [assumption|]). split; [destruct (if_shot meta); cbn [fst snd] in *; congruence|]. split; [|split; assumption]. apply J. rewrite EV. apply linspace_rising; [|assumption]. apply Rdiv_lt_0_compat; assumption.
Qed.
(** Samples on a straight line: after calibration 5.8 per millivolt. *)
Lemma shot_exact x y dc s a b : length x = length y -> x <> [] -> ranges_of s <> [] -> dc_vgap dc <> 0 -> a <> 0 ->
  let P := fit_samples (ranges_of s) (dc_vgap dc) x y in spread P -> on_the_line P a b ->
  exists n corr line fit, find_if_noise savgol x y dc (Some s) = Ok (n, corr, line, fit) /\ corr * a = 5800 * dc_vgap dc /\ line = map (fun t => (a * t + b) * corr) x /\
    forall p1 p2, In p1 P -> In p2 P -> snd p2 * corr - snd p1 * corr = 5800 * (fst p2 * dc_vgap dc - fst p1 * dc_vgap dc).
Proof.
  intros L NX NE G A P SP OL. rewrite noise_eq by assumption. fold P. destruct (calibrate_line x dc P a b SP OL A G NX) as [fit E]. do 4 eexists. split; [exact E|]. split; [field; assumption|]. split; [reflexivity|].
  intros p1 p2 H1 H2. rewrite (OL p1 H1), (OL p2 H2). field. assumption.
Qed.
Lemma shot_empty x y dc : find_if_noise savgol x y dc (Some (Several [])) = Err IndexError.
Proof. reflexivity. Qed.
Lemma shot_noise_value x dc P a b n corr line fit : calibrate x dc P = Ok (n, corr, line, fit) -> rising x -> (2 <= length x)%nat -> spread P -> on_the_line P a b -> a <> 0 ->
  nth 0 x 0 <= dc_vint dc / dc_vgap dc <= nth (length x - 1) x 0 -> n = (a * (dc_vint dc / dc_vgap dc) + b) * corr.
Proof.
  intros E RX L SP OL A IN. apply calibrate_ok in E. destruct E as [_ [_ [_ [a' [b' [BL [_ [_ [LI [N _]]]]]]]]]]. destruct (polyfit_unique P a b a' b' SP OL BL) as [-> ->]. rewrite N, LI.
  rewrite (map_ext (fun t => (a * t + b) * corr) (fun t => (a * corr) * t + b * corr)) by (intros; ring). rewrite interp_line by assumption. ring.
Qed.
End Oracle.

(** ** Cases *)
Definition q0 (best : string) (vb : option R) : ifparams :=
  {| q_v_fmt := "mV"; q_v_multiplier := 1; q_sigma := None; q_vmax := 2; q_npts := 3; q_rseries := None; q_vshot := None;
     q_freq := Some 230; q_t_hot := 293; q_t_cold := 79; q_vbest := vb; q_best_pt := best |}.
Definition dc0 : dcivdata :=
  {| dc_vraw := []; dc_iraw := []; dc_vnorm := []; dc_inorm := []; dc_vgap := 1; dc_igap := 1; dc_fgap := 1; dc_rn := 1; dc_rsg := 1;
     dc_offset := (0, 0); dc_vint := 0; dc_rseries := None |}.
Definition dcif0 : dcifdata := {| if_noise := 10; if_corr := 2; if_fit := true; if_shot := ([], []); if_vmax := 2 |}.
Definition cold0 : matrix := {| ncols := 2; rows := measured [0; 1000; 3000] [1; 2; 3] |}.
Lemma rising3 a b c : a < b < c -> rising [a; b; c].
Proof. intros H i j IJ J. destruct i as [|[|i]], j as [|[|[|j]]]; cbn [List.length nth] in *; try lia; lra. Qed.
Lemma run_case savgol r : 0 < r -> exists V ph pc tn gain idx meta, if_data savgol insertion_argsort (scaled_file r cold0) cold0 dc0 (Some dcif0) (q0 "Max Gain" (Some 1)) = Ok (V, ph, pc, tn, gain, idx, meta).
Proof.
  intros R0. apply (if_total savgol insertion_argsort dc0 dcif0 (q0 "Max Gain" (Some 1)) 230 (/ 10 ^ 3)); cbn [q0 q_freq q_t_hot q_t_cold q_v_fmt q_rseries q_sigma q_v_multiplier q_npts q_vbest dc0 dc_vgap List.length]; try lra; try lia; try reflexivity.
  - apply insertion_sorts.
  - apply rising3. lra.
  - eauto.
Qed.
Lemma fit_case : let x := [1; 2; 3; 4; 5] in let y := map (fun t => 3 * t + 1) x in let P := fit_samples [(0, 6)] 1 x y in length P = 5%nat /\ spread P /\ on_the_line P 3 1.
Proof.
  cbv zeta. assert (E : fit_samples [(0, 6)] 1 [1; 2; 3; 4; 5] (map (fun t => 3 * t + 1) [1; 2; 3; 4; 5]) = List.combine [1; 2; 3; 4; 5] (map (fun t => 3 * t + 1) [1; 2; 3; 4; 5])).
  { unfold fit_samples, shot_samples, in_ranges. cbn [map List.combine filter existsb fst snd]. repeat match goal with |- context [Rlt_dec ?a ?b] => destruct (Rlt_dec a b); [|exfalso; lra] end. cbn. reflexivity. }
  rewrite E. split; [reflexivity|]. split.
  - exists (1, 3 * 1 + 1), (2, 3 * 2 + 1). cbn. split; [tauto|]. split; [tauto|lra].
  - intros p [<-|[<-|[<-|[<-|[<-|[]]]]]]; reflexivity.
Qed.
(** A three-row spectrum of three frequencies is taken the wrong way round. *)
Lemma square_wrong : exists f h c th tc mx, length h = length f /\ length c = length f /\
  if_response {| ncols := length f; rows := by_quantity f h c |} th tc mx <> if_response {| ncols := 3; rows := by_frequency f h c |} th tc mx.
Proof.
  exists [FV 1; FV 2; FV 3], [FV 0; FV 0; FV 0], [FV 0; FV 0; FV 0], 293, 79, 1000. split; [reflexivity|]. split; [reflexivity|]. cbn [List.length]. rewrite response_rows by reflexivity.
  unfold if_response. cbn [ncols rows Nat.eqb by_quantity map nth bind]. rewrite bcast_eq by reflexivity. cbn [bind]. intros H. injection H as H _. lra.
Qed.
Lemma dark_wrong : exists f h c th tc mx tn r1 r2 r3, length h = length f /\ length c = length f /\ 0 < tc < th /\ 0 < mx /\
  if_response {| ncols := 3; rows := by_frequency f h c |} th tc mx = Ok (r1, tn, r2, r3) /\ In FNaN tn.
Proof.
  exists [FV 1], [FV 0], [FNInf], 293, 79, 1000, [FNaN], [FV 1], [FV 0], [FNInf]. split; [reflexivity|]. split; [reflexivity|]. split; [lra|]. split; [lra|]. split; [|now left].
  rewrite response_rows by reflexivity. cbn [zipwith]. rewrite response_nan by lra. reflexivity.
Qed.
(** A noise temperature beyond the range. *)
Lemma large_tn Th Tc T G : 0 < Tc < Th -> 0 < G -> (Th - Tc) * 10 ^ 10 < Tc + T -> tn_at Th Tc (G * (Th + T)) (G * (Tc + T)) = FV ((Th - Tc) * 10 ^ 10 - Tc).
Proof.
  intros [PC L] GP B. assert (D : 0 < 10 ^ 10) by (apply pow_lt; lra). assert (P : 0 < Tc + T) by nra.
  assert (E : G * (Th + T) / (G * (Tc + T)) = 1 + (Th - Tc) / (Tc + T)) by (field; lra).
  assert (Y : (Th - Tc) / (Tc + T) < 1 / 10 ^ 10). { apply (Rmult_lt_reg_r (10 ^ 10 * (Tc + T))); [now apply Rmult_lt_0_compat|]. replace (1 / 10 ^ 10 * (10 ^ 10 * (Tc + T))) with (Tc + T) by (field; lra). replace ((Th - Tc) / (Tc + T) * (10 ^ 10 * (Tc + T))) with ((Th - Tc) * 10 ^ 10) by (field; lra). assumption. }
  rewrite (tn_finite Th Tc _ _ y_limit); [|apply y_low; [apply Rmult_integral_contrapositive_currified; lra|rewrite E; unfold y_limit; lra]|pose proof limit_gt; lra]. f_equal. unfold y_limit. field.
Qed.
