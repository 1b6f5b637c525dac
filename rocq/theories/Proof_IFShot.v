(** Proofs about the shot-noise calibration and about whole IF measurements. *)
From Coq Require Import List ZArith Bool Lia Reals Lra String.
From Verif Require Import Base Model_QtCurrent Proof_Circuit Proof_IVModels Float NumPy Proof_NumPy Spec_CleanData Proof_CleanData Model_CleanData Model_MathFn Proof_Filters Spec_RespFn Model_RespFn Proof_RespFn Proof_RespFn2 Spec_IVData Model_IVData Proof_IVLoad Proof_IVData Proof_IVCurve Spec_IFData Model_IFData Proof_IFNoise Proof_IFLoad.
Import ListNotations.
Open Scope R_scope.
Local Notation length := List.length.
Local Notation rising := Spec_RespFn.increasing.

Lemma in_ranges_eq l u : existsb (fun r => Rltb (fst r) u && Rltb u (snd r)) l = in_ranges l u.
Proof.
  unfold in_ranges. induction l as [|r l IH]; [reflexivity|]. cbn [existsb]. rewrite IH. f_equal. destruct (Rlt_dec (fst r) u), (Rlt_dec u (snd r)); rewrite ?(Rltb_t (fst r) u), ?(Rltb_t u (snd r)), ?(Rltb_f (fst r) u), ?(Rltb_f u (snd r)) by lra; reflexivity.
Qed.
Lemma count_map {A} (f : A -> bool) l : count_true (map f l) = length (filter f l).
Proof. unfold count_true. induction l as [|a l IH]; [reflexivity|]. cbn. destruct (f a); cbn; now rewrite IH. Qed.
Definition calibrate (x : list R) (dc : dcivdata) (P : list (R * R)) : res (R * R * list R * bool) :=
  let* (slope, intercept) := linregress (map fst P) (map snd P) in
  let i_slope := map (fun a => slope * a + intercept)%R x in
  let* c := quot (58 / 10) slope in
  let corr := (c * dc_vgap dc * 10 ^ 3)%R in
  let i_slope := map (fun a => a * corr)%R i_slope in
  let* at_ := quot (dc_vint dc) (dc_vgap dc) in
  let* n := np_interp [at_] x i_slope in
  let if_noise := nth 0 n 0%R in
  Ok (if_noise, corr, i_slope, Rltb 0 if_noise && Rltb if_noise 50).
Section Oracle.
Variable savgol : list R -> Z -> Z -> list R.
Lemma noise_eq x y dc s : length x = length y -> ranges_of s <> [] ->
  find_if_noise savgol x y dc (Some s) = calibrate x dc (fit_samples (ranges_of s) (dc_vgap dc) x y).
Proof.
  intros L NE. unfold find_if_noise, range_mask. assert (E : match s with One lo hi => Ok [(lo, hi)] | Several [] => Err IndexError | Several l => Ok l end = Ok (ranges_of s)) by (destruct s as [lo hi|[|r l]]; [reflexivity|now destruct NE|reflexivity]).
  rewrite E. clear E. cbn [bind]. destruct (combine_unzip x y L) as [E1 E2].
  assert (EM : forall g : R -> bool, map g x = map (fun p => g (fst p)) (List.combine x y)) by (intros g; rewrite <- E1 at 1; now rewrite map_map).
  assert (SX : forall g, select (map g (List.combine x y)) x = Ok (map fst (filter g (List.combine x y)))) by (intros g; rewrite <- E1 at 2; apply select_map).
  assert (SY : forall g, select (map g (List.combine x y)) y = Ok (map snd (filter g (List.combine x y)))) by (intros g; rewrite <- E2 at 2; apply select_map).
  rewrite !EM. rewrite count_map.
  assert (F1 : filter (fun p => existsb (fun r => Rltb (fst r) (fst p * dc_vgap dc) && Rltb (fst p * dc_vgap dc) (snd r)) (ranges_of s)) (List.combine x y) = shot_samples (ranges_of s) (dc_vgap dc) x y)
    by (unfold shot_samples; apply filter_ext; intros; apply in_ranges_eq).
  assert (F2 : filter (fun p => Rltb 2 (fst p)) (List.combine x y) = filter (fun p => if Rlt_dec 2 (fst p) then true else false) (List.combine x y))
    by (apply filter_ext; intros p; destruct (Rlt_dec 2 (fst p)); rewrite ?Rltb_t, ?Rltb_f by lra; reflexivity).
  unfold fit_samples. cbv zeta. rewrite F1. destruct (length (shot_samples _ _ _ _) <? 5)%nat; rewrite SX, SY; cbn [bind]; [rewrite F2|rewrite F1]; reflexivity.
Qed.
End Oracle.
Lemma calibrate_ok x dc P n corr line fit : calibrate x dc P = Ok (n, corr, line, fit) ->
  P <> [] /\ dc_vgap dc <> 0 /\ (1 <= length x)%nat /\ exists a b, best_line P a b /\ a <> 0 /\ corr = 5800 * dc_vgap dc / a /\
  line = map (fun t => (a * t + b) * corr) x /\ n = np_interp1 x line (dc_vint dc / dc_vgap dc) /\ (fit = true <-> 0 < n < 50).
Proof.
  unfold calibrate, linregress. rewrite map_length. destruct (length P =? 0)%nat; [discriminate|]. cbn [negb guard bind]. destruct (polyfit1 _ _) as [[a b]|] eqn:PF; [|discriminate]. cbn [bind]. apply polyfit_best in PF. destruct PF as [NE BL].
  destruct (quot (58 / 10) a) eqn:Q1; [|discriminate]. cbn [bind]. apply quot_ok in Q1. destruct Q1 as [A ->]. destruct (quot _ (dc_vgap dc)) eqn:Q2; [|discriminate]. cbn [bind]. apply quot_ok in Q2. destruct Q2 as [G ->].
  destruct (np_interp _ _ _) as [l|] eqn:I; [|discriminate]. cbn [bind]. apply np_interp_inv in I. destruct I as [-> [LX _]]. cbn [map nth]. intros H. injection H as <- <- <- <-.
  split; [assumption|]. split; [assumption|]. split; [assumption|]. exists a, b. split; [assumption|]. split; [assumption|]. split; [field; assumption|]. split; [now rewrite map_map|]. split; [reflexivity|].
  rewrite andb_true_iff. match goal with |- _ <-> 0 < ?m < 50 => generalize m; intros n end. split.
  - intros [H1 H2]. revert H1 H2. destruct (Rltb_spec 0 n); [|discriminate]. destruct (Rltb_spec n 50); [|discriminate]. intros _ _. lra.
  - intros [H1 H2]. now rewrite !Rltb_t by assumption.
Qed.
Lemma calibrate_line x dc P a b : spread P -> on_the_line P a b -> a <> 0 -> dc_vgap dc <> 0 -> x <> [] ->
  let corr := 5800 * dc_vgap dc / a in let line := map (fun t => (a * t + b) * corr) x in
  exists fit, calibrate x dc P = Ok (np_interp1 x line (dc_vint dc / dc_vgap dc), corr, line, fit).
Proof.
  intros SP OL A G NE corr line. unfold calibrate, linregress. rewrite map_length. destruct (Nat.eqb_spec (length P) 0) as [E|E]; [destruct P; [destruct SP as [p [q [[] _]]]|discriminate]|]. cbn [negb guard bind].
  rewrite (polyfit_line _ a b SP OL). cbn [bind]. rewrite !quot_eq by assumption. cbn [bind]. rewrite map_map. assert (EC : 58 / 10 / a * dc_vgap dc * 10 ^ 3 = corr) by (unfold corr; field; assumption). rewrite EC. fold line.
  unfold np_interp. destruct (Nat.eqb_spec (length x) 0) as [Z|Z]; [now destruct x|]. unfold line at 1. rewrite map_length, Nat.eqb_refl. cbn [negb guard bind map nth]. eexists. reflexivity.
Qed.
(** Powers in other units. *)
Lemma rsum_times c l : rsum (map (fun a => a * c) l) = rsum l * c.
Proof. unfold rsum. induction l as [|a l IH]; [cbn; ring|]. cbn [map fold_right]. rewrite IH. ring. Qed.
Definition ptimes (c : R) (p : R * R) : R * R := (fst p, snd p * c).
Lemma regress_scaled c P : linregress (map fst (map (ptimes c) P)) (map snd (map (ptimes c) P)) = rmap (fun r => (fst r * c, snd r * c)) (linregress (map fst P) (map snd P)).
Proof.
  unfold linregress, polyfit1. rewrite !map_length, Nat.eqb_refl. destruct (length P =? 0)%nat; [reflexivity|]. cbn [negb guard bind]. rewrite !zip_map2, !map_map. cbn [ptimes fst snd]. change (map (fun p : R * R => fst p) P) with (map fst P).
  replace (rsum (map (fun p => fst p * (snd p * c)) P)) with (rsum (map (fun p => fst p * snd p) P) * c) by (rewrite <- rsum_times, map_map; f_equal; apply map_ext; intros; ring).
  replace (rsum (map (fun p => snd p * c) P)) with (rsum (map snd P) * c) by (rewrite <- rsum_times, map_map; reflexivity).
  destruct (Reqb _ 0); [reflexivity|]. cbn [negb guard bind rmap fst snd]. unfold Rdiv. f_equal. f_equal; ring.
Qed.
Lemma combine_times c x y : List.combine x (map (fun a => a * c) y) = map (ptimes c) (List.combine x y).
Proof. revert y. induction x as [|a x IH]; intros [|b y]; try reflexivity. cbn. now rewrite IH. Qed.
Lemma filter_times c (f : R -> bool) P : filter (fun p => f (fst p)) (map (ptimes c) P) = map (ptimes c) (filter (fun p => f (fst p)) P).
Proof. induction P as [|p P IH]; [reflexivity|]. cbn [map filter ptimes fst]. rewrite IH. destruct (f (fst p)); reflexivity. Qed.
Lemma fit_samples_scaled c r g x y : fit_samples r g x (map (fun a => a * c) y) = map (ptimes c) (fit_samples r g x y).
Proof.
  unfold fit_samples, shot_samples. cbv zeta. rewrite !combine_times. rewrite (filter_times c (fun u => in_ranges r (u * g))), (filter_times c (fun u => if Rlt_dec 2 u then true else false)). rewrite map_length. destruct (_ <? 5)%nat; reflexivity.
Qed.
Lemma calibrate_scaled c x dc P : c <> 0 -> calibrate x dc (map (ptimes c) P) = rmap (fun r => let '(n, corr, line, fit) := r in (n, corr / c, line, fit)) (calibrate x dc P).
Proof.
  intros C. unfold calibrate. rewrite regress_scaled. destruct (linregress _ _) as [[a b]|]; [|reflexivity]. cbn [rmap bind fst snd]. destruct (Req_dec a 0) as [->|A].
  { unfold quot at 1 3. rewrite Rmult_0_l, !Reqb_t by reflexivity. reflexivity. }
  rewrite (quot_eq _ a) by assumption. rewrite quot_eq by (apply Rmult_integral_contrapositive_currified; assumption). cbn [bind].
  replace (map (fun a0 => a0 * (58 / 10 / (a * c) * dc_vgap dc * 10 ^ 3)) (map (fun a0 => a * c * a0 + b * c) x)) with (map (fun a0 => a0 * (58 / 10 / a * dc_vgap dc * 10 ^ 3)) (map (fun a0 => a * a0 + b) x)) by (rewrite !map_map; apply map_ext; intros; field; auto).
  destruct (quot (dc_vint dc) (dc_vgap dc)); [|reflexivity]. cbn [bind]. destruct (np_interp _ _ _); [|reflexivity]. cbn [bind rmap]. do 4 f_equal. field. auto.
Qed.
Section Oracle2.
Variable savgol : list R -> Z -> Z -> list R.
Lemma noise_scaled c x y dc s : c <> 0 -> length x = length y -> find_if_noise savgol x (map (fun a => a * c) y) dc (Some s) =
  rmap (fun r => let '(n, corr, line, fit) := r in (n, corr / c, line, fit)) (find_if_noise savgol x y dc (Some s)).
Proof.
  intros C L. destruct (ranges_of s) as [|r l] eqn:E.
  - destruct s as [lo hi|l]; [discriminate|]. cbn in E. subst l. reflexivity.
  - rewrite !noise_eq by (rewrite ?map_length; congruence). rewrite fit_samples_scaled. now apply calibrate_scaled.
Qed.

(** ** A whole measurement *)
Lemma rest_grid dc q v p r : load_rest dc q v p = Ok r -> dc_vgap dc <> 0 /\ fst r = linspace 0 (q_vmax q / dc_vgap dc) (q_npts q) /\ length (snd r) = q_npts q.
Proof.
  unfold load_rest. cbv zeta. destruct (if_series _ _ _); [|discriminate]. cbn [bind]. destruct (Reqb_spec (dc_vgap dc) 0) as [E|E]; [discriminate|]. cbn [negb guard bind]. destruct (guard _ _); [|discriminate]. cbn [bind].
  destruct (np_interp_zero _ _ _) as [P0|] eqn:EP; [|discriminate]. cbn [bind]. destruct (if_smooth _ _ _ _) as [P1|] eqn:ES; [|discriminate]. cbn [bind]. intros H. injection H as <-. split; [assumption|]. split; [reflexivity|]. cbn [snd].
  apply interp_zero_inv in EP. destruct EP as [_ [_ EP]]. assert (LP : length P0 = q_npts q) by (rewrite EP, map_length; apply linspace_length).
  unfold if_smooth in ES. destruct (q_sigma q); [|congruence]. destruct (pyget _ 1); [|discriminate]. cbn [bind] in ES. destruct (pyget _ 0); [|discriminate]. cbn [bind] in ES. destruct (quot _ _); [|discriminate]. cbn [bind] in ES. apply conv_length in ES. congruence.
Qed.
Lemma load_grid s m dc q v p : sorting s -> load_if s m dc q = Ok (v, p) -> dc_vgap dc <> 0 /\ v = linspace 0 (q_vmax q / dc_vgap dc) (q_npts q) /\ length p = q_npts q.
Proof.
  intros S H. destruct (load_if_inv _ _ _ _ _ H) as [NC [u U]]. rewrite (load_if_eq s m dc q u S NC U) in H. destruct (clean_xy _ _ _) as [[x y]|]; [|discriminate]. cbn [bind] in H. destruct (reals _); [|discriminate]. cbn [bind] in H. destruct (reals _); [|discriminate]. cbn [bind] in H. apply rest_grid in H. exact H.
Qed.
Definition average (a b : list R) : list R := zipwith (fun a b => (a + b) / 2) a b.
Lemma average_self v : average v v = v.
Proof. unfold average. induction v as [|a v IH]; [reflexivity|]. cbn. rewrite IH. f_equal. field. Qed.
Lemma average_scaled c a b : average (map (fun x => x * c) a) (map (fun x => x * c) b) = map (fun x => x * c) (average a b).
Proof. unfold average. revert b. induction a as [|x a IH]; intros [|y b]; try reflexivity. cbn. rewrite IH. f_equal. field. Qed.
Definition calibration dc q (dcif : option dcifdata) v ph pc : res (R * R * bool * (list R * list R)) :=
  match dcif with
  | None => rmap (fun r => let '(n, corr, line, fit) := r in (n, corr, fit, (v, line))) (find_if_noise savgol v (average ph pc) dc (q_vshot q))
  | Some d => Ok (if_noise d, if_corr d, if_fit d, if_shot d)
  end.
Lemma if_data_eq s hot cold dc dcif q : sorting s ->
  if_data savgol s hot cold dc dcif q =
  (let* rh := load_if s hot dc q in let* rc := load_if s cold dc q in
   let* r := calibration dc q dcif (fst rc) (snd rh) (snd rc) in
   let '(noise, corr, fit, shot) := r in
   let ph := map (fun a => a * corr) (snd rh) in let pc := map (fun a => a * corr) (snd rc) in
   let* t := find_tn_gain (fst rc) ph (fst rc) pc (dc_vgap dc) q in
   let '(tn, gain, idx) := t in
   let* top := amax (fst rc) in
   Ok (fst rc, ph, pc, tn, gain, idx, {| if_noise := noise; if_corr := corr; if_fit := fit; if_shot := shot; if_vmax := top * dc_vgap dc |})).
Proof.
  intros S. unfold if_data. destruct (load_if s hot dc q) as [[vh ph]|] eqn:EH; [|reflexivity]. cbn [bind fst snd]. destruct (load_if s cold dc q) as [[vc pc]|] eqn:EC; [|reflexivity]. cbn [bind fst snd].
  apply load_grid in EH; [|assumption]. apply load_grid in EC; [|assumption]. destruct EH as [_ [EV LH]], EC as [_ [EV' LC]]. rewrite <- EV' in EV. subst vh.
  unfold calibration. destruct dcif as [d|]; [reflexivity|]. rewrite !bcast_eq by congruence. cbn [bind]. fold (average vc vc) (average ph pc). rewrite average_self. destruct (find_if_noise _ _ _ _ _) as [[[[n c] l] b]|]; reflexivity.
Qed.
Lemma if_data_inv s hot cold dc dcif q v ph pc tn gain idx meta : sorting s -> if_data savgol s hot cold dc dcif q = Ok (v, ph, pc, tn, gain, idx, meta) ->
  exists h c, load_if s hot dc q = Ok (v, h) /\ load_if s cold dc q = Ok (v, c) /\ length v = q_npts q /\ length h = q_npts q /\ length c = q_npts q /\
  ph = map (fun a => a * if_corr meta) h /\ pc = map (fun a => a * if_corr meta) c /\ find_tn_gain v ph v pc (dc_vgap dc) q = Ok (tn, gain, idx) /\
  calibration dc q dcif v h c = Ok (if_noise meta, if_corr meta, if_fit meta, if_shot meta) /\ exists top, amax v = Ok top /\ if_vmax meta = top * dc_vgap dc.
Proof.
  intros S. rewrite if_data_eq by assumption. destruct (load_if s hot dc q) as [[vh h]|] eqn:EH; [|discriminate]. cbn [bind fst snd]. destruct (load_if s cold dc q) as [[vc c]|] eqn:EC; [|discriminate]. cbn [bind fst snd].
  pose proof EH as GH. pose proof EC as GC. apply load_grid in GH; [|assumption]. apply load_grid in GC; [|assumption]. destruct GH as [_ [EV LH]], GC as [_ [EV' LC]]. rewrite <- EV' in EV. subst vh.
  destruct (calibration _ _ _ _ _ _) as [[[[n corr] fit] shot]|] eqn:CA; [|discriminate]. cbn [bind]. destruct (find_tn_gain _ _ _ _ _ _) as [[[tn' gain'] idx']|] eqn:FT; [|discriminate]. cbn [bind]. destruct (amax vc) as [top|] eqn:AM; [|discriminate]. cbn [bind].
  intros H. injection H as <- <- <- <- <- <- <-. exists h, c. cbn [if_noise if_corr if_fit if_shot if_vmax]. split; [reflexivity|]. split; [reflexivity|]. split; [rewrite EV'; apply linspace_length|]. do 5 (split; [assumption || reflexivity|]). split; [assumption|]. eauto.
Qed.
(** Other power units, with a given calibration or with ranges for the shot noise. *)
Lemma if_scaled_given s hot cold dc d q f k v ph pc tn gain idx meta : sorting s -> 0 < k -> q_freq q = Some f -> 0 < f -> 0 < q_t_hot q -> 0 < q_t_cold q ->
  if_data savgol s hot cold dc (Some d) q = Ok (v, ph, pc, tn, gain, idx, meta) ->
  if_data savgol s (scaled_file k hot) (scaled_file k cold) dc (Some d) q = Ok (v, map (fun a => a * k) ph, map (fun a => a * k) pc, tn, map (fmul (FV k)) gain, idx, meta).
Proof.
  intros S K EF PF PH PC H. pose proof H as H0. apply if_data_inv in H; [|assumption]. destruct H as [h [c [EH [EC [LV [LH [LC [E1 [E2 [FT [CA [top [AM VM]]]]]]]]]]]]].
  rewrite if_data_eq, !load_scaled, EH, EC by assumption. cbn [rmap bind fst snd]. cbn [calibration] in CA |- *. injection CA as C1 C2 C3 C4. cbn [bind].
  assert (X : forall l, map (fun a => a * if_corr d) (map (fun a => a * k) l) = map (Rmult k) (map (fun a => a * if_corr d) l)) by (intros l; rewrite !map_map; apply map_ext; intros; ring).
  rewrite !X, C2, <- E1, <- E2. rewrite (analysis_scaled v ph pc (dc_vgap dc) q f) by (try assumption; rewrite ?E1, ?E2, ?map_length; congruence). rewrite FT. cbn [rmap bind]. rewrite AM. cbn [bind].
  assert (Y : forall l, map (Rmult k) l = map (fun a => a * k) l) by (intros l; apply map_ext; intros; ring). rewrite !Y. do 2 f_equal. destruct meta as [m1 m2 m3 m4 m5]. cbn [if_noise if_corr if_fit if_shot if_vmax] in *. congruence.
Qed.
Lemma if_scaled_shot s hot cold dc q vs k v ph pc tn gain idx meta : sorting s -> 0 < k -> q_vshot q = Some vs ->
  if_data savgol s hot cold dc None q = Ok (v, ph, pc, tn, gain, idx, meta) ->
  if_data savgol s (scaled_file k hot) (scaled_file k cold) dc None q =
    Ok (v, ph, pc, tn, gain, idx, {| if_noise := if_noise meta; if_corr := if_corr meta / k; if_fit := if_fit meta; if_shot := if_shot meta; if_vmax := if_vmax meta |}).
Proof.
  intros S K VS H. apply if_data_inv in H; [|assumption]. destruct H as [h [c [EH [EC [LV [LH [LC [E1 [E2 [FT [CA [top [AM VM]]]]]]]]]]]]].
  rewrite if_data_eq, !load_scaled, EH, EC by assumption. cbn [rmap bind fst snd]. cbn [calibration] in CA |- *. rewrite VS in *. rewrite average_scaled, noise_scaled by (try lra; unfold average; rewrite zipwith_length; congruence).
  destruct (find_if_noise _ _ _ _ _) as [[[[n corr] line] fit]|]; [|discriminate]. cbn [rmap] in CA. injection CA as C1 C2 C3 C4. cbn [rmap bind].
  assert (X : forall l, map (fun a => a * (corr / k)) (map (fun a => a * k) l) = map (fun a => a * if_corr meta) l) by (intros l; rewrite !map_map; apply map_ext; intros; rewrite <- C2; field; lra).
  rewrite !X, <- E1, <- E2, FT. cbn [bind]. rewrite AM. cbn [bind]. do 2 f_equal. f_equal; congruence.
Qed.
(** Hot and cold powers in the ratio of a receiver with noise temperature T. *)
Lemma if_recovers s hot cold dc dcif q f T v ph pc tn gain idx meta : sorting s -> q_freq q = Some f -> 0 < f -> 0 < q_t_cold q < q_t_hot q ->
  let Th := callen_welton (f * 10 ^ 9) (q_t_hot q) in let Tc := callen_welton (f * 10 ^ 9) (q_t_cold q) in
  0 < Tc + T <= (Th - Tc) * 10 ^ 10 -> hot = scaled_file ((Th + T) / (Tc + T)) cold ->
  if_data savgol s hot cold dc dcif q = Ok (v, ph, pc, tn, gain, idx, meta) ->
  length tn = q_npts q /\ length gain = q_npts q /\ length pc = q_npts q /\ forall k, (k < q_npts q)%nat ->
    (nth k pc 0 <> 0 -> nth k tn FNaN = FV T /\ nth k gain FNaN = FV (nth k pc 0 / (Tc + T))) /\ (nth k pc 0 = 0 -> nth k tn FPInf = FNaN /\ nth k gain FNaN = FV 0).
Proof.
  intros S EF PF [PC LT] Th Tc B EHC H. assert (TT : Tc < Th) by (apply th_tc; assumption). assert (TP : 0 < Tc) by (apply tc_pos; assumption).
  set (r := (Th + T) / (Tc + T)) in *. assert (RP : 0 < r) by (unfold r; apply Rdiv_lt_0_compat; lra).
  apply if_data_inv in H; [|assumption]. destruct H as [h [c [EH [EC [LV [LH [LC [E1 [E2 [FT [CA [top [AM VM]]]]]]]]]]]]].
  subst hot. rewrite load_scaled, EC in EH by assumption. cbn [rmap fst snd] in EH. injection EH as EH.
  assert (LPH : length ph = length v) by (rewrite E1, map_length; congruence). assert (LPC : length pc = length v) by (rewrite E2, map_length; congruence).
  apply (analysis_lists v ph pc (dc_vgap dc) q f) in FT; try assumption; try lra. fold Th Tc in FT. destruct FT as [-> ->]. rewrite !zipwith_length by congruence. do 3 (split; [congruence|]). intros k K.
  assert (EK : nth k ph 0 = r * nth k pc 0). { rewrite E1, E2, <- EH, !map_map. rewrite !(nth_map_in _ c k 0 0) by lia. ring. }
  rewrite !(nth_zipwith _ ph pc k 0 0) by lia. rewrite EK. split.
  - intros N. set (G := nth k pc 0 / (Tc + T)). assert (EG : nth k pc 0 = G * (Tc + T)) by (unfold G; field; lra). assert (EG' : r * nth k pc 0 = G * (Th + T)) by (unfold G, r; field; lra). rewrite EG', EG. split.
    + apply tn_recovers; try lra. intros Z. rewrite Z, Rmult_0_l in EG. contradiction.
    + now apply gain_recovers.
  - intros ->. rewrite Rmult_0_r. split; [apply tn_nan; lra|]. unfold gain_at. cbn [fdiv]. rewrite Reqb_f by lra. f_equal. unfold Rdiv. ring.
Qed.
End Oracle2.
