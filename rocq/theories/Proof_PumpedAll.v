(** Proofs about the analysis of pumped data for gains, slopes and drive levels of any kind. *)
From Coq Require Import List ZArith Lia Lra Bool Arith Reals String.
From Coquelicot Require Import Complex.
From Verif Require Import Base Model_QtCurrent Float NumPy Proof_NumPy Model_MathFn Model_CleanData Model_RespFn Model_IVData Model_Tucker Model_IFData Model_ExpData Model_Objects Model_RecoverAll Model_PumpedAll
  Spec_QtCurrent Spec_CleanData Spec_RespFn Spec_IVData Spec_IFData Spec_ExpData Proof_Circuit Proof_RespFn2 Proof_IVModels Proof_IVData Proof_IVCurve Proof_IFNoise Proof_IFCases Proof_ExpData Proof_Recover2 Proof_Slope Proof_Objects Proof_ExpPrint Proof_RecoverAll.
Import ListNotations.
Local Notation length := List.length.
Open Scope list_scope.
Open Scope R_scope.

(** ** The slope *)
Lemma slope_eq P : P <> [] -> slope_all (map fst P) (map snd P) =
  if Reqb (INR (length P) * Sxx P - Sx P * Sx P) 0 then if Reqb (nth 0 (map fst P) 0) 0 then Err LinAlgError else Ok (FV (Sy P / INR (length P) / (2 * nth 0 (map fst P) 0)))
  else Ok (FV ((INR (length P) * Sxy P - Sx P * Sy P) / (INR (length P) * Sxx P - Sx P * Sx P))).
Proof.
  intros NE. unfold slope_all. rewrite !map_length, Nat.eqb_refl. destruct (Nat.eqb_spec (length P) 0) as [E|E]; [destruct P; [contradiction|discriminate]|]. cbn [negb guard bind].
  rewrite zip_map2, map_map. fold (Sx P) (Sy P) (Sxx P) (Sxy P). reflexivity.
Qed.
Lemma slope_agrees P a b : polyfit1 (map fst P) (map snd P) = Ok (a, b) -> slope_all (map fst P) (map snd P) = Ok (FV a).
Proof.
  intros H. destruct (polyfit_best P a b H) as [NE _]. rewrite polyfit_eq in H by assumption. rewrite slope_eq by assumption. cbv zeta in H. destruct (Reqb _ 0); [discriminate|]. do 2 f_equal. congruence.
Qed.
Lemma slope_spread P : spread P -> exists a b, slope_all (map fst P) (map snd P) = Ok (FV a) /\ best_line P a b.
Proof.
  intros SP. assert (NE : P <> []) by (intros ->; destruct SP as [p [_ [[] _]]]). pose proof (det_pos P SP) as D. pose proof (polyfit_eq P NE) as E. cbv zeta in E. destruct (Reqb_spec (INR (length P) * Sxx P - Sx P * Sx P) 0) as [Z|Z]; [lra|].
  eexists _, _. split; [exact (slope_agrees P _ _ E)|]. exact (proj2 (polyfit_best P _ _ E)).
Qed.
Lemma slope_one x y : x <> 0 -> slope_all [x] [y] = Ok (FV (y / (2 * x))).
Proof.
  intros X. pose proof (slope_eq [(x, y)] ltac:(discriminate)) as E. cbn [map fst snd] in E. rewrite E. unfold Sx, Sxx, Sy, rsum. cbn [map fst snd fold_right length nth INR].
  replace (1 * (x * x + 0) - (x + 0) * (x + 0)) with 0 by ring. rewrite Reqb_t by reflexivity. rewrite Reqb_f by assumption. do 2 f_equal. field. exact X.
Qed.

(** ** Decibels *)
Lemma decibels g : (forall x, g = FV x -> (0 < x -> exists d, fmul (FV 10) (log10_all g) = FV d /\ Rpower 10 (d / 10) = x) /\ (x = 0 -> fmul (FV 10) (log10_all g) = FNInf) /\ (x < 0 -> fmul (FV 10) (log10_all g) = FNaN)) /\
  (g = FNaN -> fmul (FV 10) (log10_all g) = FNaN).
Proof.
  split; [|intros ->; reflexivity]. intros x ->. unfold log10_all. split; [|split]; intros H.
  - destruct (Rltb_spec 0 x); [|lra]. exists (10 * log10 x). split; [reflexivity|]. now apply pow10_db.
  - subst x. destruct (Rltb_spec 0 0); [lra|]. rewrite Reqb_t by reflexivity. cbn [fmul]. rewrite Reqb_f by lra. unfold finf. match goal with |- context [Rltb ?a ?b] => destruct (Rltb_spec a b) end; [reflexivity|lra].
  - destruct (Rltb_spec 0 x); [lra|]. rewrite Reqb_f by lra. reflexivity.
Qed.

(** ** The values at the best bias voltage *)
Lemma summary_eq v i v_if tn gain idx rn : length v = length i -> v <> [] -> (idx < length v_if)%nat -> (idx < length tn)%nat -> (idx < length gain)%nat ->
  exists k, smallest (map (fun x => Rabs (x - nth idx v_if 0)) v) k /\
    let P := firstn 10 (skipn k (List.combine v i)) in
    if_summary_all v i v_if tn gain idx rn = let* p := slope_all (map fst P) (map snd P) in
      Ok {| c_tn := nth idx tn FNaN; c_gain := nth idx gain FNaN; c_gdb := fmul (FV 10) (log10_all (nth idx gain FNaN)); c_v := nth idx v_if 0; c_zj := fdiv (FV rn) p |}.
Proof.
  intros L NE K1 K2 K3. assert (NM : map (fun x => Rabs (x - nth idx v_if 0)) v <> []) by (intros E; apply map_eq_nil in E; contradiction). destruct (argmin_reals _ NM) as [k [Ek S]]. rewrite map_map in Ek. exists k. split; [exact S|]. intros P.
  unfold if_summary_all. assert (IX : forall A (l : list A) d, (idx < length l)%nat -> pyget l (Z.of_nat idx) = Ok (nth idx l d)).
  { intros A l d K. rewrite (pyget_nth l (Z.of_nat idx) d) by lia. destruct (Z.ltb_spec (Z.of_nat idx) 0); [lia|]. now rewrite Nat2Z.id. }
  rewrite (IX _ tn FNaN K2), (IX _ gain FNaN K3), (IX _ v_if 0 K1). cbn [bind]. rewrite Ek. cbn [bind].
  assert (SG : forall A (l : list A), segment l k (k + 10) = firstn 10 (skipn k l)) by (intros A l; rewrite segment_firstn; now replace (k + 10 - k)%nat with 10%nat by lia).
  rewrite !SG. destruct (combine_unzip v i L) as [C1 C2]. unfold P. set (Q := List.combine v i) in *. clearbody Q. rewrite <- C1, <- C2, !skipn_map, !firstn_map. reflexivity.
Qed.
Lemma summary_agrees v i v_if tn gain idx rn s : length v = length i -> if_summary v i v_if tn gain idx rn = Ok s ->
  if_summary_all v i v_if tn gain idx rn = Ok {| c_tn := b_tn s; c_gain := FV (b_gain s); c_gdb := FV (b_gdb s); c_v := b_v s; c_zj := FV (b_zj s) |}.
Proof.
  intros L H. unfold if_summary in H. unfold if_summary_all. apply bind_ok in H. destruct H as [t [Et H]]. rewrite Et. apply bind_ok in H. destruct H as [g0 [Eg H]]. rewrite Eg. apply bind_ok in H. destruct H as [g [Eg' H]]. destruct g0 as [g'| | |]; try discriminate. apply ok_inj in Eg'. subst g'.
  apply bind_ok in H. destruct H as [u [Gu H]]. destruct (Rltb_spec 0 g) as [PG|PG]; [|discriminate]. clear Gu u. apply bind_ok in H. destruct H as [vb [Ev H]]. rewrite Ev. apply bind_ok in H. destruct H as [k [Ek H]]. cbn [bind]. rewrite Ek. cbn [bind]. apply bind_ok in H. destruct H as [[a b] [Ep H]]. apply bind_ok in H. destruct H as [zj [Ez H]]. apply ok_inj in H. subst s. cbn [b_tn b_gain b_gdb b_v b_zj].
  assert (SG : forall A (l : list A), segment l k (k + 10) = firstn 10 (skipn k l)) by (intros A l; rewrite segment_firstn; now replace (k + 10 - k)%nat with 10%nat by lia).
  rewrite !SG in *. destruct (combine_unzip v i L) as [C1 C2]. set (Q := List.combine v i) in *. clearbody Q. rewrite <- C1, <- C2 in Ep |- *. rewrite !skipn_map, !firstn_map in *. rewrite (slope_agrees _ _ _ Ep). cbn [bind].
  cbn [fst] in Ez. unfold quot in Ez. unfold fdiv. destruct (Reqb a 0); [discriminate|]. unfold log10_all. destruct (Rltb_spec 0 g); [|lra]. cbn [fmul]. do 2 f_equal. congruence.
Qed.
Lemma skip_two {A} (l : list A) k d : (S k < length l)%nat -> exists r, firstn 10 (skipn k l) = nth k l d :: nth (S k) l d :: r.
Proof.
  intros K. assert (E : forall (l : list A) k, (k < length l)%nat -> skipn k l = nth k l d :: skipn (S k) l).
  { clear. induction l as [|a l IH]; intros [|k] K; cbn [length] in K; try lia; [reflexivity|]. cbn [skipn nth]. rewrite IH by lia. reflexivity. }
  rewrite E by lia. rewrite (E l (S k)) by lia. eexists. reflexivity.
Qed.
Lemma skip_last {A} (l : list A) k d : length l = S k -> firstn 10 (skipn k l) = [nth k l d].
Proof. revert k. induction l as [|a l IH]; intros k K; [discriminate|]. destruct k as [|k]; [destruct l; [reflexivity|discriminate]|]. cbn [skipn nth]. apply IH. now injection K. Qed.
Theorem rising_summary v i v_if tn gain idx rn : Spec_RespFn.increasing v -> length v = length i -> v <> [] -> nth (length v - 1) v 0 <> 0 -> (idx < length v_if)%nat -> (idx < length tn)%nat -> (idx < length gain)%nat ->
  exists s k, if_summary_all v i v_if tn gain idx rn = Ok s /\ c_tn s = nth idx tn FNaN /\ c_gain s = nth idx gain FNaN /\ c_v s = nth idx v_if 0 /\
    (forall x, c_gain s = FV x -> (0 < x -> exists d, c_gdb s = FV d /\ Rpower 10 (d / 10) = x) /\ (x = 0 -> c_gdb s = FNInf) /\ (x < 0 -> c_gdb s = FNaN)) /\
    smallest (map (fun x => Rabs (x - c_v s)) v) k /\
    ((S k < length v)%nat -> exists a b, best_line (firstn 10 (skipn k (List.combine v i))) a b /\ c_zj s = fdiv (FV rn) (FV a)) /\
    (S k = length v -> c_zj s = fdiv (FV rn) (FV (nth k i 0 / (2 * nth k v 0)))).
Proof.
  intros INC L NE LZ K1 K2 K3. destruct (summary_eq v i v_if tn gain idx rn L NE K1 K2 K3) as (k & SM & E). cbv zeta in E. set (Q := List.combine v i) in *.
  assert (LQ : length Q = length v) by (unfold Q; rewrite combine_length, <- L; apply Nat.min_id). assert (KL : (k < length v)%nat) by (destruct SM as [SM _]; now rewrite map_length in SM).
  assert (NQ : forall j, nth j Q (0, 0) = (nth j v 0, nth j i 0)) by (intros j; unfold Q; now apply combine_nth).
  destruct (Nat.eq_dec (S k) (length v)) as [KE|KE].
  - rewrite (skip_last Q k (0, 0)) in E by lia. rewrite NQ in E. cbn [map fst snd] in E. rewrite slope_one in E by (replace k with (length v - 1)%nat by lia; exact LZ). cbn [bind] in E. eexists _, k. split; [exact E|]. cbn [c_tn c_gain c_gdb c_v c_zj]. split; [reflexivity|]. split; [reflexivity|]. split; [reflexivity|]. split; [exact (proj1 (decibels _))|]. split; [exact SM|]. split; [lia|reflexivity].
  - assert (KK : (S k < length Q)%nat) by lia. assert (SP : spread (firstn 10 (skipn k Q))).
    { destruct (skip_two Q k (0, 0) KK) as [r ->]. exists (nth k Q (0, 0)), (nth (S k) Q (0, 0)). split; [now left|]. split; [right; now left|]. rewrite !NQ. cbn [fst]. specialize (INC k (S k) ltac:(lia) ltac:(lia)). lra. }
    destruct (slope_spread _ SP) as (a & b & ES & BL). rewrite ES in E. cbn [bind] in E. eexists _, k. split; [exact E|]. cbn [c_tn c_gain c_gdb c_v c_zj]. split; [reflexivity|]. split; [reflexivity|]. split; [reflexivity|]. split; [exact (proj1 (decibels _))|]. split; [exact SM|]. split; [|lia]. intros _. exists a, b. split; [exact BL|reflexivity].
Qed.

(** ** A hot load that gives no more power than the cold one *)
Lemma gain_not_positive v h c vgap q f tn gain idx : q_freq q = Some f -> 0 < f -> 0 < q_t_cold q < q_t_hot q -> length h = length v -> length c = length v ->
  (forall k, (k < length v)%nat -> nth k h 0 <= nth k c 0) -> find_tn_gain v h v c vgap q = Ok (tn, gain, idx) ->
  exists g, nth idx gain FNaN = FV g /\ g <= 0 /\ (nth idx h 0 < nth idx c 0 -> g < 0).
Proof.
  intros EF F T LH LC HC E. destruct (tn_gain_position _ _ _ _ _ _ _ _ LH LC E) as (L4 & L5 & IX).
  destruct (analysis_bounds v h c vgap q f EF F ltac:(lra) ltac:(lra) LH LC tn gain idx idx ltac:(lra) E IX) as (_ & _ & _ & _ & EG). rewrite (nth_indep _ FPInf FNaN) in EG by lia.
  assert (GH : 0 < f * 10 ^ 9) by (apply Rmult_lt_0_compat; [assumption|apply pow_lt; lra]). pose proof (cw_rises (f * 10 ^ 9) (q_t_cold q) (q_t_hot q) GH T) as CW.
  set (g := _ / _) in EG. exists g. split; [exact EG|]. specialize (HC idx IX). assert (G0 : g <= 0). { unfold g. assert (I0 : 0 < / (callen_welton (f * 10 ^ 9) (q_t_hot q) - callen_welton (f * 10 ^ 9) (q_t_cold q))) by (apply Rinv_0_lt_compat; lra). assert (X : 0 <= (nth idx c 0 - nth idx h 0) * / (callen_welton (f * 10 ^ 9) (q_t_hot q) - callen_welton (f * 10 ^ 9) (q_t_cold q))) by (apply Rmult_le_pos; lra). unfold Rdiv. lra. } split; [exact G0|]. intros LT. unfold g. assert (I0 : 0 < / (callen_welton (f * 10 ^ 9) (q_t_hot q) - callen_welton (f * 10 ^ 9) (q_t_cold q))) by (apply Rinv_0_lt_compat; lra). assert (X : 0 < (nth idx c 0 - nth idx h 0) * / (callen_welton (f * 10 ^ 9) (q_t_hot q) - callen_welton (f * 10 ^ 9) (q_t_cold q))) by (apply Rmult_lt_0_compat; lra). unfold Rdiv. lra.
Qed.

(** ** The constructor *)
Section Oracles.
Variable argsort : list fl -> list nat.
Variable savgol : list R -> Z -> Z -> list R.
Variable J : nat -> R -> R.
Local Notation PUMPED := (pumped_data argsort savgol J).
Local Notation ALL := (pumped_all argsort savgol J).
Definition lift_summary (s : ifsummary) : ifsummary_all := {| c_tn := b_tn s; c_gain := FV (b_gain s); c_gdb := FV (b_gdb s); c_v := b_v s; c_zj := FV (b_zj s) |}.
Definition lift_if (n : ifresults) : ifresults_all := {| m_voltage := n_voltage n; m_hot := n_hot n; m_cold := n_cold n; m_tn := n_tn n; m_gain := n_gain n; m_best := n_best n; m_dcif := n_dcif n; m_summary := lift_summary (n_summary n) |}.
Definition lift_data (u : pumpeddata) : pumpeddata_all :=
  {| x_freq := u_freq u; x_vph := u_vph u; x_voltage := u_voltage u; x_current := u_current u; x_rdyn := u_rdyn u; x_recovered := option_map lift (u_recovered u); x_if := option_map lift_if (u_if u) |}.
Theorem pumped_agrees m d hot cold o u : PUMPED m d hot cold o = Ok u -> ALL m d hot cold o = Ok (lift_data u).
Proof.
  unfold pumped_data, pumped_all. intros H. apply bind_ok in H as (f & Ef & H). rewrite Ef. apply bind_ok in H as (r & Er & H). cbn [bind]. rewrite Er. apply bind_ok in H as ([V I] & EV & H). cbn [bind]. rewrite EV. apply bind_ok in H as (rd & ED & H). cbn [bind]. rewrite ED.
  destruct (iv_grid argsort savgol _ _ _ _ _ EV) as [_ LI]. cbn [bind]. apply bind_ok in H as (rec & EC & H). apply bind_ok in H as (g & EG & H). apply ok_inj in H. subst u.
  assert (X1 : (if o_analyze_iv o then let* vph := quot (f * 10 ^ 9) (dc_fgap (d_dc d)) in let* r := recover_all J (idc (d_resp d)) (ikk (d_resp d)) V I vph (rec_options o) in Ok (Some r) else Ok None) = Ok (option_map lift rec)).
  { destruct (o_analyze_iv o); [|apply ok_inj in EC; now subst]. apply bind_ok in EC as (p & Ep & EC). rewrite Ep. apply bind_ok in EC as (q & Eq & EC). apply ok_inj in EC. subst rec. cbn [bind]. rewrite (all_agrees J _ _ _ _ _ _ _ (eq_sym LI) Eq). reflexivity. }
  rewrite X1. cbn [bind].
  assert (X2 : (match hot, cold with
            | Some hot, Some cold =>
                if o_analyze_if o then
                  let* f := if_data savgol argsort hot cold (d_dc d) (calibration d) (if_options o) in
                  let '(vh, ph, pc, tn, gain, idx, cal) := f in
                  let* s := if_summary_all V I vh tn gain idx (dc_rn (d_dc d)) in
                  Ok (Some {| m_voltage := vh; m_hot := ph; m_cold := pc; m_tn := tn; m_gain := gain; m_best := idx; m_dcif := cal; m_summary := s |})
                else Ok None
            | _, _ => Ok None
            end) = Ok (option_map lift_if g)).
  { destruct hot as [h|]; [|apply ok_inj in EG; now subst]. destruct cold as [c|]; [|apply ok_inj in EG; now subst]. destruct (o_analyze_if o); [|apply ok_inj in EG; now subst].
    apply bind_ok in EG as ([[[[[[vh ph] pc] tn] gain] idx] cal] & E1 & EG). rewrite E1. cbn [bind]. apply bind_ok in EG as (s & E2 & EG). apply ok_inj in EG. subst g. rewrite (summary_agrees _ _ _ _ _ _ _ _ (eq_sym LI) E2). reflexivity. }
  rewrite X2. reflexivity.
Qed.
Lemma iv_increasing m dc p V I : iv_curve savgol argsort m dc p = Ok (V, I) -> 0 < dc_vgap dc -> 0 < p_vmax p -> (2 <= p_npts p)%nat -> Spec_RespFn.increasing V /\ length V = p_npts p /\ nth (length V - 1) V 0 = p_vmax p / dc_vgap dc.
Proof.
  intros H G M N. destruct (iv_grid argsort savgol _ _ _ _ _ H) as [-> _]. rewrite map_length, linspace_length. assert (NT : forall k, (k < p_npts p)%nat -> nth k (map (fun a => a / dc_vgap dc) (linspace (- p_vmax p) (p_vmax p) (p_npts p))) 0 = (- p_vmax p + INR k * ((p_vmax p - - p_vmax p) / INR (p_npts p - 1))) / dc_vgap dc).
  { intros k K. rewrite (nth_indep _ 0 (0 / dc_vgap dc)) by (rewrite map_length, linspace_length; exact K). rewrite (map_nth (fun a => a / dc_vgap dc)), Proof_RespFn2.linspace_nth by exact K. reflexivity. }
  assert (N0 : 0 < INR (p_npts p - 1)) by (apply lt_0_INR; lia). split; [|split; [reflexivity|]].
  - intros i j IJ JL. rewrite map_length, linspace_length in JL. rewrite !NT by lia. apply Rmult_lt_compat_r; [now apply Rinv_0_lt_compat|]. apply Rplus_lt_compat_l, Rmult_lt_compat_r; [apply Rdiv_lt_0_compat; lra|now apply lt_INR].
  - rewrite NT by lia. f_equal. field. lra.
Qed.
Theorem pumped_returns m d hot cold o V I f : sorting argsort -> o_freq o = Some f -> dc_fgap (d_dc d) <> 0 -> 0 < dc_vgap (d_dc d) -> 0 < o_vmax o -> (32 <= o_npts o)%nat ->
  iv_curve savgol argsort m (d_dc d) (iv_options o) = Ok (V, I) ->
  (o_analyze_iv o = true -> exists lo hi, range_used (rec_options o) lo hi /\ step_samples (f * 10 ^ 9 / dc_fgap (d_dc d)) lo hi V I <> []) ->
  (forall h c, hot = Some h -> cold = Some c -> o_analyze_if o = true -> exists r, if_data savgol argsort h c (d_dc d) (calibration d) (if_options o) = Ok r) ->
  exists u, ALL m d hot cold o = Ok u /\ x_voltage u = V /\ x_current u = I.
Proof.
  intros HS EF FG VG VM NP EV HR HI. destruct (iv_increasing _ _ _ _ _ EV VG VM ltac:(cbn [iv_options p_npts]; lia)) as (INC & LV & LAST). cbn [iv_options p_npts p_vmax] in LV, LAST. destruct (iv_grid argsort savgol _ _ _ _ _ EV) as [_ LI].
  unfold pumped_all. rewrite EF. cbn [bind]. unfold quot at 1. rewrite Reqb_f by exact FG. cbn [bind]. rewrite EV. cbn [bind].
  destruct (span_spec I V (eq_sym LI) 10 ltac:(lia) true ltac:(lia)) as (rd & ED & _). change (2 * Z.of_nat 10 + 1)%Z with 21%Z in ED. rewrite ED. cbn [bind].
  assert (X1 : exists rec, (if o_analyze_iv o then let* vph := quot (f * 10 ^ 9) (dc_fgap (d_dc d)) in let* r := recover_all J (idc (d_resp d)) (ikk (d_resp d)) V I vph (rec_options o) in Ok (Some r) else Ok None) = Ok rec).
  { destruct (o_analyze_iv o); [|eexists; reflexivity]. unfold quot. rewrite Reqb_f by exact FG. cbn [bind]. destruct (HR eq_refl) as (lo & hi & RU & SS). destruct (all_runs J (idc (d_resp d)) (ikk (d_resp d)) V I _ _ lo hi (eq_sym LI) RU SS) as [r Er]. rewrite Er. eexists. reflexivity. }
  destruct X1 as [rec X1]. rewrite X1. cbn [bind].
  assert (NE : V <> []) by (intros ->; cbn in LV; lia).
  destruct hot as [h|]; [|eexists; split; [reflexivity|split; reflexivity]]. destruct cold as [c|]; [|eexists; split; [reflexivity|split; reflexivity]]. destruct (o_analyze_if o); [|eexists; split; [reflexivity|split; reflexivity]].
  destruct (HI h c eq_refl eq_refl eq_refl) as [[[[[[[vh ph] pc] tn] gain] idx] cal] E1]. rewrite E1. cbn [bind]. destruct (if_lengths savgol argsort h c _ _ _ _ _ _ _ _ _ _ HS E1) as (L1 & L2 & L3 & FT & _).
  destruct (tn_gain_position vh ph pc _ _ tn gain idx (eq_trans L2 (eq_sym L1)) (eq_trans L3 (eq_sym L1)) FT) as (L4 & L5 & IX).
  destruct (rising_summary V I vh tn gain idx (dc_rn (d_dc d)) INC (eq_sym LI) NE) as (s & k & ES & _); try lia.
  { rewrite LAST. apply Rgt_not_eq, Rdiv_lt_0_compat; assumption. }
  rewrite ES. eexists. split; [reflexivity|split; reflexivity].
Qed.
Lemma all_inv m d hot cold o u : ALL m d hot cold o = Ok u -> iv_curve savgol argsort m (d_dc d) (iv_options o) = Ok (x_voltage u, x_current u) /\
  forall n, x_if u = Some n -> exists h c, hot = Some h /\ cold = Some c /\ if_data savgol argsort h c (d_dc d) (calibration d) (if_options o) = Ok (m_voltage n, m_hot n, m_cold n, m_tn n, m_gain n, m_best n, m_dcif n) /\
    if_summary_all (x_voltage u) (x_current u) (m_voltage n) (m_tn n) (m_gain n) (m_best n) (dc_rn (d_dc d)) = Ok (m_summary n).
Proof.
  unfold pumped_all. intros H. apply bind_ok in H as (f & Ef & H). apply bind_ok in H as (r & Er & H). apply bind_ok in H as ([V I] & EV & H). apply bind_ok in H as (rd & ED & H). apply bind_ok in H as (rec & EC & H). apply bind_ok in H as (g & EG & H). apply ok_inj in H. subst u. cbn [x_voltage x_current x_if]. split; [exact EV|]. intros n ->.
  destruct hot as [h|]; [|discriminate]. destruct cold as [c|]; [|discriminate]. destruct (o_analyze_if o); [|discriminate]. apply bind_ok in EG as ([[[[[[vh ph] pc] tn] gain] idx] cal] & E1 & EG). apply bind_ok in EG as (s & E2 & EG). assert (E3 : {| m_voltage := vh; m_hot := ph; m_cold := pc; m_tn := tn; m_gain := gain; m_best := idx; m_dcif := cal; m_summary := s |} = n) by congruence. subst n.
  exists h, c. cbn [m_voltage m_hot m_cold m_tn m_gain m_best m_dcif m_summary]. auto.
Qed.
Theorem all_best m d hot cold o u n : sorting argsort -> 0 < dc_vgap (d_dc d) -> 0 < o_vmax o -> (2 <= o_npts o)%nat -> ALL m d hot cold o = Ok u -> x_if u = Some n ->
  let V := x_voltage u in let I := x_current u in let s := m_summary n in
  (m_best n < length (m_voltage n))%nat /\ c_tn s = nth (m_best n) (m_tn n) FNaN /\ c_gain s = nth (m_best n) (m_gain n) FNaN /\ c_v s = nth (m_best n) (m_voltage n) 0 /\
  (forall x, c_gain s = FV x -> (0 < x -> exists d, c_gdb s = FV d /\ Rpower 10 (d / 10) = x) /\ (x = 0 -> c_gdb s = FNInf) /\ (x < 0 -> c_gdb s = FNaN)) /\
  exists k, smallest (map (fun x => Rabs (x - c_v s)) V) k /\
    ((S k < length V)%nat -> exists a b, best_line (firstn 10 (skipn k (List.combine V I))) a b /\ c_zj s = fdiv (FV (dc_rn (d_dc d))) (FV a)) /\
    (S k = length V -> c_zj s = fdiv (FV (dc_rn (d_dc d))) (FV (nth k I 0 / (2 * nth k V 0)))).
Proof.
  intros HS VG VM NP H HN V I s. destruct (all_inv _ _ _ _ _ _ H) as [EV HI]. destruct (HI n HN) as (h & c & _ & _ & E1 & E2). fold V I in EV, E2. fold s in E2.
  destruct (iv_increasing _ _ _ _ _ EV VG VM NP) as (INC & LV & LAST). cbn [iv_options p_npts p_vmax] in LV, LAST. destruct (iv_grid argsort savgol _ _ _ _ _ EV) as [_ LI].
  destruct (if_lengths savgol argsort h c _ _ _ _ _ _ _ _ _ _ HS E1) as (L1 & L2 & L3 & FT & _). destruct (tn_gain_position (m_voltage n) (m_hot n) (m_cold n) _ _ (m_tn n) (m_gain n) (m_best n) (eq_trans L2 (eq_sym L1)) (eq_trans L3 (eq_sym L1)) FT) as (L4 & L5 & IX).
  destruct (rising_summary V I (m_voltage n) (m_tn n) (m_gain n) (m_best n) (dc_rn (d_dc d)) INC (eq_sym LI)) as (s' & k & ES & T1 & T2 & T3 & T4 & T5 & T6 & T7); try lia.
  { intros E. rewrite E in LV. cbn in LV. lia. }
  { rewrite LAST. apply Rgt_not_eq, Rdiv_lt_0_compat; assumption. }
  rewrite E2 in ES. apply ok_inj in ES. subst s'. split; [exact IX|]. split; [exact T1|]. split; [exact T2|]. split; [exact T3|]. split; [exact T4|]. exists k. auto.
Qed.
Theorem all_cold m d hot cold o u n f : sorting argsort -> 0 < dc_vgap (d_dc d) -> 0 < o_vmax o -> (2 <= o_npts o)%nat -> o_freq o = Some f -> 0 < f -> 0 < o_t_cold o < o_t_hot o -> ALL m d hot cold o = Ok u -> x_if u = Some n ->
  (forall k, (k < length (m_voltage n))%nat -> nth k (m_hot n) 0 <= nth k (m_cold n) 0) ->
  (c_gdb (m_summary n) = FNInf \/ c_gdb (m_summary n) = FNaN) /\ (nth (m_best n) (m_hot n) 0 < nth (m_best n) (m_cold n) 0 -> c_gdb (m_summary n) = FNaN).
Proof.
  intros HS VG VM NP EF F T H HN HC. destruct (all_inv _ _ _ _ _ _ H) as [EV HI]. destruct (HI n HN) as (h & c & _ & _ & E1 & _). destruct (if_lengths savgol argsort h c _ _ _ _ _ _ _ _ _ _ HS E1) as (L1 & L2 & L3 & FT & _).
  destruct (all_best m d hot cold o u n HS VG VM NP H HN) as (IX & _ & T2 & _ & T4 & _). destruct (gain_not_positive (m_voltage n) (m_hot n) (m_cold n) _ (if_options o) f (m_tn n) (m_gain n) (m_best n) EF F T (eq_trans L2 (eq_sym L1)) (eq_trans L3 (eq_sym L1)) HC FT) as (g & EG & G0 & G1).
  rewrite EG in T2. destruct (T4 g T2) as (_ & Z & N). split; [|auto]. destruct (Rle_lt_or_eq_dec _ _ G0) as [L|E]; [right; auto|left; auto].
Qed.
End Oracles.

