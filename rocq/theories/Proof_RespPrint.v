(** Proofs about the report of the interpolation. *)
From Coq Require Import List ZArith Lia Lra Bool Arith Reals String.
From Coquelicot Require Import Complex.
From Verif Require Import Base Model_QtCurrent Float NumPy Proof_NumPy Model_MathFn Spec_MathFn Proof_Circuit Proof_IVModels
  Proof_Slope Proof_Filters Proof_KK Spec_RespFn Model_CleanData Proof_CleanData Model_IVModels Model_RespFn Proof_Nodes Proof_RespFn Proof_RespFn2 Proof_RespFn3 Proof_RespFn4
  Model_IVData Model_Misc Model_Print Model_Said Proof_Said Model_RespPrint Spec_RespPrint.
From Verif Require Proof_IVData.
Import ListNotations.
Local Notation length := List.length.
Open Scope list_scope.
Open Scope R_scope.

Definition dev (f : R -> R) (p : R * R) : R := snd p - f (fst p).
(** ** The differences *)
Lemma errors_ok v c f : length c = length v -> interp_errors v c f = Ok (map fst (samples v c), map (dev f) (samples v c)).
Proof.
  intros HC. unfold interp_errors. cbv zeta. destruct (unzip_ok v c (eq_sym HC)) as [E1 E2]. set (g := fun v => (Rltb (-34) v && Rltb v 34)%bool).
  set (P := List.combine v c) in *. assert (E : map g v = map (fun p => g (fst p)) P) by (rewrite <- E1 at 1; apply map_map). rewrite E.
  assert (S1 : select (map (fun p => g (fst p)) P) v = Ok (map fst (filter (fun p => g (fst p)) P))) by (rewrite <- E1; apply select_map). rewrite S1. cbn [bind].
  assert (S2 : select (map (fun p => g (fst p)) P) c = Ok (map snd (filter (fun p => g (fst p)) P))) by (rewrite <- E2; apply select_map). rewrite S2. cbn [bind].
  assert (Q : filter (fun p => g (fst p)) P = samples v c).
  { unfold samples. fold P. apply filter_ext. intros [a b]. cbn [fst]. unfold g. destruct (Rltb_spec (-34) a), (Rltb_spec a 34), (Rlt_dec (-34) a), (Rlt_dec a 34); cbn; try reflexivity; lra. }
  rewrite Q. set (Q' := samples v c). do 2 f_equal. clear. unfold dev. induction Q' as [|q Q IH]; [reflexivity|]. cbn [map]. rewrite <- IH. reflexivity.
Qed.
Lemma amax_max l m : amax l = Ok m -> In m l /\ forall x, In x l -> x <= m.
Proof.
  destruct l as [|a l]; [discriminate|]. cbn [amax]. intros H. assert (E : fold_left Rmax l a = m) by congruence. clear H. revert a E.
  induction l as [|b l IH]; intros a E; cbn [fold_left] in E.
  - subst. split; [now left|]. intros x [<-|[]]. lra.
  - destruct (IH _ E) as [I U]. split.
    + destruct I as [<-|I]; [|right; now right]. unfold Rmax. destruct (Rle_dec a b); [right; now left|now left].
    + intros x [<-|[<-|I2]]; [| |apply U; now right].
      * apply (Rle_trans _ (Rmax a b)); [apply Rmax_l|apply U; now left].
      * apply (Rle_trans _ (Rmax a b)); [apply Rmax_r|apply U; now left].
Qed.
Lemma argmax_there l : l <> [] -> exists k, argmax l = Ok k.
Proof. destruct l; [contradiction|]. intros _. cbn. eauto. Qed.
Lemma lines_ok v c f : length c = length v -> samples v c <> [] -> exists a t at_v,
  error_lines (map fst (samples v c)) (map (dev f) (samples v c)) = Ok [MeanError a; MaxError t at_v] /\ deviations v c f a t at_v.
Proof.
  intros HC NE. unfold error_lines, deviations. cbv zeta. set (P := samples v c) in *. assert (NM : map (dev f) P <> []) by (destruct P; [contradiction|discriminate]).
  destruct (argmax_there _ NM) as [k AK]. pose proof (Proof_IVData.argmax_ok _ _ AK) as [B T]. rewrite map_length in B, T.
  destruct (amax (map (dev f) P)) as [m|e] eqn:AM; [|destruct (map (dev f) P); [contradiction|discriminate]].
  cbn [bind]. rewrite AK. cbn [bind]. rewrite (pyget_nth (map fst P) k 0) by (rewrite map_length; lia). destruct (Z.ltb_spec k 0); [lia|]. cbn [bind].
  eexists _, _, _. split; [reflexivity|]. split; [assumption|]. assert (NK : forall i, (i < length P)%nat -> nth i (map (dev f) P) 0 = dev f (nth i P (0, 0))).
  { intros i Hi. rewrite (nth_indep (map (dev f) P) 0 (dev f (0, 0))) by now rewrite map_length. apply map_nth. }
  split; [|].
  - unfold mean. rewrite !map_length. assert (L : INR (length P) <> 0) by (apply not_0_INR; destruct P; [contradiction|discriminate]).
    unfold Rdiv. rewrite Rmult_assoc, Rinv_l, Rmult_1_r by assumption. rewrite map_map. reflexivity.
  - destruct (amax_max _ _ AM) as [IN UP]. assert (MK : m = dev f (nth (Z.to_nat k) P (0, 0))).
    { apply Rle_antisym.
      - destruct (In_nth _ _ 0 IN) as [j [Hj <-]]. rewrite map_length in Hj. rewrite <- (NK (Z.to_nat k)) by lia. apply T. exact Hj.
      - apply UP. apply in_map. apply nth_In. lia. }
    split.
    + exists (snd (nth (Z.to_nat k) P (0, 0))). rewrite (nth_indep (map fst P) 0 (fst (0, 0))) by (rewrite map_length; lia). rewrite map_nth, <- surjective_pairing.
      split; [apply nth_In; lia|exact MK].
    + intros p Hp. apply (UP (dev f p)). now apply in_map.
Qed.
Lemma samples_there v c : length c = length v -> (exists k, (k < length v)%nat /\ -34 < nth k v 0 < 34) -> samples v c <> [].
Proof.
  intros HC [k [Hk B]] E. assert (I : In (nth k v 0, nth k c 0) (samples v c)); [|rewrite E in I; destruct I].
  unfold samples. apply filter_In. split; [rewrite <- (combine_nth v c k 0 0) by (now symmetry); apply nth_In; rewrite combine_length; lia|]. cbn [fst].
  destruct (Rlt_dec (-34) (nth k v 0)), (Rlt_dec (nth k v 0) 34); try reflexivity; lra.
Qed.
Lemma zero_inside v : (1 <= length v)%nat -> nth 0 v 0 = 0 -> exists k, (k < length (reflect v))%nat /\ -34 < nth k (reflect v) 0 < 34.
Proof.
  intros L Z. exists (length v - 1)%nat. rewrite reflect_length by assumption. split; [lia|]. pose proof (reflect_right v 0 L) as E. rewrite Nat.add_0_r in E. rewrite E, Z. lra.
Qed.
Lemma check_same v c f b : length c = length v -> check_interp v c f b = (let* m := amax (map (dev f) (samples v c)) in guard (Rltb m b) AssertionError).
Proof.
  intros HC. pose proof (errors_ok v c f HC) as E. unfold interp_errors, check_interp in *. cbv zeta in *.
  destruct (select _ v) as [sv|] eqn:E1; [|discriminate]. cbn [bind] in *. destruct (select _ c) as [sc|] eqn:E2; [|discriminate]. cbn [bind] in *. injection E as _ ->. reflexivity.
Qed.

(** ** The result does not depend on what is printed *)
Section Spline.
Variable spline dspline : list R -> list R -> Z -> R -> R.
Lemma setup_same verbose v c ckk p : length c = length v -> length ckk = length v -> (exists k, (k < length v)%nat /\ -34 < nth k v 0 < 34) ->
  snd (setup_interpolation_p spline dspline verbose v c ckk p) = setup_interpolation spline dspline v c ckk p.
Proof.
  intros HC HK X. unfold setup_interpolation_p, setup_interpolation. rewrite after_say. cbn [snd].
  rewrite after_quiet. destruct (sample_curve v c (max_npts_dc p) _) as [i1|]; [|reflexivity]. cbn [bind].
  rewrite after_quiet. destruct (sample_curve v c (max_npts_kk p) _) as [i2|]; [|reflexivity]. cbn [bind].
  rewrite after_quiet. destruct (at_indices v i1) as [xd|]; [|reflexivity]. cbn [bind].
  rewrite after_quiet. destruct (at_indices c i1) as [yd|]; [|reflexivity]. cbn [bind].
  rewrite after_quiet. destruct (interp _ _ xd yd _) as [[f1 d1]|]; [|reflexivity]. cbn [bind].
  rewrite after_quiet. destruct (at_indices v i2) as [xk|]; [|reflexivity]. cbn [bind].
  rewrite after_quiet. destruct (at_indices ckk i2) as [yk|]; [|reflexivity]. cbn [bind].
  rewrite after_quiet. destruct (interp _ _ xk yk _) as [[f2 d2]|]; [|reflexivity]. cbn [bind].
  rewrite !errors_ok by assumption. rewrite !after_quiet.
  rewrite !check_same by assumption. destruct (lines_ok v c f1 HC (samples_there v c HC X)) as [a [t [w [-> _]]]]. destruct (lines_ok v ckk f2 HK (samples_there v ckk HK X)) as [a' [t' [w' [E2 _]]]].
  assert (F : map fst (samples v c) = map fst (samples v ckk)).
  { unfold samples. clear - HC HK. revert c ckk HC HK. induction v as [|x v IH]; intros [|y c] [|z ckk] HC HK; try discriminate; [reflexivity|]. cbn [List.combine filter fst]. specialize (IH c ckk ltac:(cbn in HC; lia) ltac:(cbn in HK; lia)).
    destruct (Rlt_dec (-34) x); [|exact IH]. destruct (Rlt_dec x 34); [|exact IH]. cbn [map fst]. now rewrite IH. }
  rewrite F, E2. destruct verbose; rewrite !snd_after; cbn [snd quietly after say_if bind];
    (match goal with |- snd (match ?a with _ => _ end) = _ => destruct a as [[]|] end; cbn [bind snd]; [|reflexivity]);
    (match goal with |- snd (match ?a with _ => _ end) = _ => destruct a as [[]|] end; cbn [bind snd]; reflexivity).
Qed.
Lemma init_same verbose v c p : length c = length v -> (1 <= kk_n p)%Z -> snd (respfn_init_p spline dspline verbose v c p) = respfn_init spline dspline v c p.
Proof.
  intros HC HN. unfold respfn_init_p, respfn_init. rewrite after_say. cbn [snd].
  rewrite after_quiet. destruct (pyget v 0) as [v0|] eqn:E0; [|reflexivity]. cbn [bind].
  rewrite after_quiet. destruct (Reqb_spec v0 0) as [Z|]; [|reflexivity]. cbn [guard bind].
  rewrite after_quiet. destruct (pyget v (-1)) as [ve|] eqn:EE; [|reflexivity]. cbn [bind].
  rewrite after_quiet. destruct (Rltb_spec 5 ve) as [F|]; [|reflexivity]. cbn [guard bind]. cbv zeta.
  assert (L : (1 <= length v)%nat) by (destruct v; [discriminate|simpl; lia]).
  rewrite (pyget_nth v 0 0) in E0 by lia. injection E0 as E0. change (0 <? 0)%Z with false in E0. cbv iota in E0. change (Z.to_nat 0) with 0%nat in E0.
  rewrite (pyget_nth v (-1) 0) in EE by lia. change (-1 <? 0)%Z with true in EE. cbv iota in EE. replace (Z.to_nat (-1 + Z.of_nat (length v))) with (length v - 1)%nat in EE by lia. injection EE as EE.
  assert (L2 : (2 <= length v)%nat). { destruct (Nat.lt_ge_cases (length v) 2) as [G|G]; [|assumption]. exfalso. replace (length v - 1)%nat with 0%nat in EE by lia. lra. }
  pose proof (reflect_length v L) as LV. pose proof (reflect_length c ltac:(lia)) as LC.
  rewrite snd_after. assert (EQ : snd (match v_smear p with None => quietly (Ok (reflect c)) | Some s => let! c0 := quietly (smear_curve (reflect v) (reflect c) s) in let! _ := say_if verbose [Smear s] in quietly (Ok c0) end)
    = match v_smear p with None => Ok (reflect c) | Some s => smear_curve (reflect v) (reflect c) s end).
  { destruct (v_smear p) as [s|]; [|reflexivity]. rewrite after_quiet. destruct (smear_curve _ _ s); [|reflexivity]. now rewrite after_say. }
  match goal with |- bind ?m _ = _ => replace m with (match v_smear p with None => Ok (reflect c) | Some s => smear_curve (reflect v) (reflect c) s end) by (symmetry; exact EQ) end. clear EQ. destruct (match v_smear p with None => Ok (reflect c) | Some s => _ end) as [c'|] eqn:SM; [|reflexivity]. cbn [bind].
  assert (LC' : length c' = length (reflect v)).
  { destruct (v_smear p) as [s|]; [|injection SM as <-; lia]. unfold smear_curve in SM. do 3 (apply bind_ok in SM; destruct SM as [? [_ SM]]). apply bind_ok in SM. destruct SM as [? [S2 SM]]. rewrite bcast_eq in S2 by lia. injection S2 as <-.
    apply bind_ok in SM. destruct SM as [? [S2 SM]]. apply conv_length in S2. rewrite zipwith_length in S2 by lia. rewrite bcast_eq in SM by lia. injection SM as <-. rewrite zipwith_length; lia. }
  rewrite after_quiet. destruct (kk_trans (reflect v) c' (kk_n p)) as [ckk|] eqn:KK; [|reflexivity]. cbn [bind].
  assert (LK : length ckk = length (reflect v)).
  { destruct (kk_rejects (reflect v) c' (kk_n p) LC' ltac:(lia) HN) as [[_ G] _]. destruct (kk_length _ _ _ LC' ltac:(lia) HN (G (ex_intro _ _ KK))) as [q [Q1 Q2]]. congruence. }
  rewrite snd_after. rewrite setup_same; [|assumption|assumption|apply zero_inside; [assumption|congruence]].
  destruct (setup_interpolation _ _ _ _ _ p) as [[[[f1 f2] f3] f4]|]; reflexivity.
Qed.

(** ** Silence *)
Lemma setup_quiet v c ckk p : fst (setup_interpolation_p spline dspline false v c ckk p) = [].
Proof.
  unfold setup_interpolation_p. repeat (apply fst_quiet; [reflexivity|]; intros ?; repeat match goal with x : _ * _ |- _ => destruct x end). reflexivity.
Qed.
Lemma init_quiet v c p : fst (respfn_init_p spline dspline false v c p) = [].
Proof.
  unfold respfn_init_p. do 5 (apply fst_quiet; [reflexivity|]; intros ?). cbv zeta.
  apply fst_quiet; [destruct (v_smear p) as [s|]; [|reflexivity]; apply fst_quiet; [reflexivity|]; intros ?; apply fst_quiet; reflexivity|]. intros c'.
  apply fst_quiet; [reflexivity|]. intros ckk. apply fst_quiet; [apply setup_quiet|]. now intros [[[? ?] ?] ?].
Qed.

(** ** The report *)
Lemma indices_nodes v c idx xs ys : length c = length v -> at_indices v idx = Ok xs -> at_indices c idx = Ok ys -> nodes_of v c xs ys /\ length xs = length idx.
Proof.
  intros HC. unfold at_indices. revert xs ys. induction idx as [|k idx IH]; intros xs ys H1 H2.
  - cbn in H1, H2. assert (xs = []) by congruence. assert (ys = []) by congruence. subst. split; [|reflexivity]. split; [reflexivity|]. cbn. lia.
  - destruct (mapM_cons _ _ _ _ H1) as [x [xs' [-> [G1 K1]]]]. destruct (mapM_cons _ _ _ _ H2) as [y [ys' [-> [G2 K2]]]]. destruct (IH _ _ K1 K2) as [[N1 N2] N3]. split; [|cbn; lia]. split; [cbn; lia|].
    intros [|j] Hj; [|cbn in Hj; apply N2; lia]. cbn [nth].
    assert (B : (- Z.of_nat (length v) <= k < Z.of_nat (length v))%Z).
    { destruct (Z.le_gt_cases (- Z.of_nat (length v)) k); [destruct (Z.lt_ge_cases k (Z.of_nat (length v))); [lia|]|]; rewrite pyget_err in G1 by lia; discriminate. }
    rewrite (pyget_nth v k 0) in G1 by lia. rewrite (pyget_nth c k 0) in G2 by lia. rewrite HC in G2.
    assert (x = nth (Z.to_nat (if (k <? 0)%Z then (k + Z.of_nat (length v))%Z else k)) v 0) as -> by congruence.
    assert (y = nth (Z.to_nat (if (k <? 0)%Z then (k + Z.of_nat (length v))%Z else k)) c 0) as -> by congruence.
    set (j := Z.to_nat _). rewrite <- (combine_nth v c j 0 0) by now symmetry. apply nth_In. rewrite combine_length. unfold j. destruct (Z.ltb_spec k 0); lia.
Qed.
Lemma interp_fun x y k f d : interp spline dspline x y k = Ok (f, d) -> f = spline x y k.
Proof. unfold interp. do 4 (destruct (guard _ _); [cbn [bind]|discriminate]). intros H. congruence. Qed.
Definition dc_report (n : nat) (a t w : R) : list rmsg := [CurveDC; NodesDC n; MeanError a; MaxError t w].
Definition kk_report (n : nat) (a t w : R) : list rmsg := [CurveKK; NodesKK n; MeanError a; MaxError t w].
Lemma setup_report v c ckk p out f : length c = length v -> length ckk = length v -> (exists k, (k < length v)%nat /\ -34 < nth k v 0 < 34) ->
  setup_interpolation_p spline dspline true v c ckk p = (out, Ok f) ->
  exists xd yd xk yk a1 t1 w1 a2 t2 w2, fst (fst (fst f)) = spline xd yd (spline_order p) /\ snd (fst (fst f)) = spline xk yk (spline_order p) /\ nodes_of v c xd yd /\ nodes_of v ckk xk yk /\
    deviations v c (fst (fst (fst f))) a1 t1 w1 /\ deviations v ckk (snd (fst (fst f))) a2 t2 w2 /\
    out = [Interpolating] ++ dc_report (length xd) a1 t1 w1 ++ kk_report (length xk) a2 t2 w2 ++ [Gap].
Proof.
  intros HC HK X. unfold setup_interpolation_p. rewrite after_say. intros H.
  set (m := after _ _) in H. destruct m as [out1 r] eqn:M. unfold m in M. clear m. cbn [fst snd] in H. assert (r = Ok f) by congruence. assert (OUT : out = [Interpolating] ++ out1) by congruence. subst r. clear H.
  rewrite after_quiet in M. destruct (sample_curve v c (max_npts_dc p) _) as [i1|]; [|discriminate].
  rewrite after_quiet in M. destruct (sample_curve v c (max_npts_kk p) _) as [i2|]; [|discriminate].
  rewrite after_quiet in M. destruct (at_indices v i1) as [xd|] eqn:X1; [|discriminate].
  rewrite after_quiet in M. destruct (at_indices c i1) as [yd|] eqn:Y1; [|discriminate].
  rewrite after_quiet in M. destruct (interp _ _ xd yd _) as [[f1 d1]|] eqn:I1; [|discriminate].
  rewrite after_quiet in M. destruct (at_indices v i2) as [xk|] eqn:X2; [|discriminate].
  rewrite after_quiet in M. destruct (at_indices ckk i2) as [yk|] eqn:Y2; [|discriminate].
  rewrite after_quiet in M. destruct (interp _ _ xk yk _) as [[f2 d2]|] eqn:I2; [|discriminate].
  destruct (indices_nodes v c i1 xd yd HC X1 Y1) as [N1 L1]. destruct (indices_nodes v ckk i2 xk yk HK X2 Y2) as [N2 L2].
  rewrite !errors_ok in M by assumption. rewrite !after_quiet in M.
  destruct (lines_ok v c f1 HC (samples_there v c HC X)) as [a [t [w [E1 D1]]]]. destruct (lines_ok v ckk f2 HK (samples_there v ckk HK X)) as [a' [t' [w' [E2 D2]]]].
  assert (F : map fst (samples v c) = map fst (samples v ckk)).
  { unfold samples. clear - HC HK. revert c ckk HC HK. induction v as [|x v IH]; intros [|y c] [|z ckk] HC HK; try discriminate; [reflexivity|]. cbn [List.combine filter fst]. specialize (IH c ckk ltac:(cbn in HC; lia) ltac:(cbn in HK; lia)).
    destruct (Rlt_dec (-34) x); [|exact IH]. destruct (Rlt_dec x 34); [|exact IH]. cbn [map fst]. now rewrite IH. }
  rewrite E1 in M. rewrite F, E2 in M. apply after_ok in M. destruct M as [o1 [[] [o2 [M1 [M2 ->]]]]].
  match type of M2 with match ?x with _ => _ end = _ => destruct x as [[]|]; [|discriminate] end. match type of M2 with match ?x with _ => _ end = _ => destruct x as [[]|]; [|discriminate] end.
  apply quietly_ok in M2. destruct M2 as [-> M6]. assert (f = (f1, f2, d1, d2)) as -> by congruence. cbn [fst snd].
  cbn [after quietly say_if] in M1. assert (o1 = dc_report (length i1) a t w ++ kk_report (length i2) a' t' w' ++ [Gap]) as -> by (unfold dc_report, kk_report; cbn [app]; cbn [app] in M1; congruence).
  exists xd, yd, xk, yk, a, t, w, a', t', w'. split; [now apply interp_fun in I1|]. split; [now apply interp_fun in I2|]. split; [assumption|]. split; [assumption|]. split; [assumption|]. split; [assumption|].
  rewrite OUT, L1, L2. now rewrite !app_nil_r.
Qed.
Lemma init_report v c p out r : length c = length v -> (1 <= kk_n p)%Z -> respfn_init_p spline dspline true v c p = (out, Ok r) ->
  exists xd yd xk yk a1 t1 w1 a2 t2 w2, f_idc r = spline xd yd (spline_order p) /\ f_ikk r = spline xk yk (spline_order p) /\
    nodes_of (rf_voltage r) (rf_current r) xd yd /\ nodes_of (rf_voltage r) (rf_current_kk r) xk yk /\
    deviations (rf_voltage r) (rf_current r) (f_idc r) a1 t1 w1 /\ deviations (rf_voltage r) (rf_current_kk r) (f_ikk r) a2 t2 w2 /\
    out = [Generating] ++ match v_smear p with Some s => [Smear s] | None => [] end ++ [Interpolating] ++ dc_report (length xd) a1 t1 w1 ++ kk_report (length xk) a2 t2 w2 ++ [Gap].
Proof.
  intros HC HN H. pose proof (init_same true v c p HC HN) as IS. rewrite H in IS. cbn [snd] in IS. pose proof (init_inv spline dspline v c p r (eq_sym IS)) as [L [Z [F [EV [ES [SM [KK _]]]]]]].
  assert (L2 : (2 <= length v)%nat). { destruct (Nat.lt_ge_cases (length v) 2) as [G|G]; [|assumption]. exfalso. replace (length v - 1)%nat with 0%nat in F by lia. lra. }
  pose proof (reflect_length v L) as LV. pose proof (reflect_length c ltac:(lia)) as LC.
  assert (LC' : length (rf_current r) = length (reflect v)).
  { destruct (v_smear p) as [s|] eqn:VS; [specialize (SM s eq_refl)|rewrite ES by reflexivity; lia]. unfold smear_curve in SM. do 3 (apply bind_ok in SM; destruct SM as [? [_ SM]]). apply bind_ok in SM. destruct SM as [? [S2 SM]]. rewrite bcast_eq in S2 by lia. injection S2 as <-.
    apply bind_ok in SM. destruct SM as [? [S2 SM]]. apply conv_length in S2. rewrite zipwith_length in S2 by lia. rewrite bcast_eq in SM by lia. injection SM as <-. rewrite zipwith_length; lia. }
  assert (LK : length (rf_current_kk r) = length (reflect v)).
  { destruct (kk_rejects (reflect v) (rf_current r) (kk_n p) LC' ltac:(lia) HN) as [[_ G] _]. destruct (kk_length _ _ _ LC' ltac:(lia) HN (G (ex_intro _ _ KK))) as [q [Q1 Q2]]. congruence. }
  unfold respfn_init_p in H. rewrite after_say in H. set (m := after _ _) in H. destruct m as [out1 rr] eqn:M. unfold m in M. clear m. cbn [fst snd] in H. assert (rr = Ok r) by congruence. assert (OUT : out = [Generating] ++ out1) by congruence. subst rr. clear H.
  do 4 (apply after_ok in M; destruct M as [? [? [? [Q [M ->]]]]]; apply quietly_ok in Q; destruct Q as [-> _]). cbv zeta in M.
  apply after_ok in M. destruct M as [o1 [c' [o2 [S1 [M ->]]]]]. apply after_ok in M. destruct M as [o3 [ckk [o4 [K1 [M ->]]]]]. apply quietly_ok in K1. destruct K1 as [-> K1].
  apply after_ok in M. destruct M as [o5 [[[[f1 f2] f3] f4] [o6 [ST [M ->]]]]]. apply quietly_ok in M. destruct M as [-> M]. assert (ER : r = {| rf_voltage := reflect v; rf_current := c'; rf_current_kk := ckk; f_idc := f1; f_ikk := f2; f_didc := Some f3; f_dikk := Some f4 |}) by congruence.
  subst r. cbn [rf_voltage rf_current rf_current_kk f_idc f_ikk] in *.
  destruct (setup_report _ _ _ _ _ _ LC' LK (zero_inside v L Z) ST) as [xd [yd [xk [yk [a1 [t1 [w1 [a2 [t2 [w2 [A1 [A2 [A3 [A4 [A5 [A6 ->]]]]]]]]]]]]]]]].
  exists xd, yd, xk, yk, a1, t1, w1, a2, t2, w2. cbn [fst snd] in *. repeat (split; [assumption|]). rewrite OUT. f_equal. cbn [app].
  assert (o1 = match v_smear p with Some s => [Smear s] | None => [] end) as ->; [|now rewrite app_nil_r].
  destruct (v_smear p) as [s|]; [|apply quietly_ok in S1; tauto]. apply after_ok in S1. destruct S1 as [? [? [? [Q [S1 ->]]]]]. apply quietly_ok in Q. destruct Q as [-> _]. rewrite after_say in S1. cbn [fst snd quietly] in S1. rewrite app_nil_r in S1. cbn [app]. congruence.
Qed.
End Spline.
