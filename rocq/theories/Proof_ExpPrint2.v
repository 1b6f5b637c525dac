(** The transcripts of the analysis of experimental data, and the text. *)
From Coq Require Import List ZArith Lia Lra Bool Arith Reals String Ascii.
From Coquelicot Require Import Complex.
From Verif Require Import Base Round Model_QtCurrent Float NumPy Proof_NumPy Model_MathFn Model_CleanData Model_RespFn Model_IVData Model_Tucker Model_IFData Model_ExpData Model_Objects
  Spec_CleanData Spec_IVData Spec_IFData Spec_IFShot Proof_Circuit Proof_RespFn2 Proof_IFNoise Proof_IFShot Proof_IFShot2 Model_Misc Model_Print Spec_Misc Spec_Print Proof_Misc Proof_Print Proof_Print2 Spec_HBText Proof_HBText Model_Said Proof_Said Model_ExpPrint Spec_ExpPrint Proof_ExpPrint.
Import ListNotations.
Local Notation length := List.length.
Open Scope list_scope.
Open Scope R_scope.

Lemma say_ok {M} b (l out : list M) x : say_if b l = (out, Ok x) -> out = if b then l else [].
Proof. unfold say_if. congruence. Qed.
Ltac peel H := let a := fresh "a" in let o := fresh "o" in let o2 := fresh "o" in let Q := fresh "Q" in apply after_ok in H; destruct H as [o [a [o2 [Q [H ->]]]]].
Ltac hush H := let a := fresh "a" in let o := fresh "o" in let o2 := fresh "o" in let Q := fresh "Q" in apply after_ok in H; destruct H as [o [a [o2 [Q [H ->]]]]]; apply quietly_ok in Q; destruct Q as [-> Q].

Ltac uttered Q := apply say_ok in Q; match type of Q with ?x = _ => subst x end.
Tactic Notation "peelx" ident(H) ident(o) ident(a) ident(Q) := let o2 := fresh "o" in apply after_ok in H; destruct H as [o [a [o2 [Q [H ->]]]]].

Lemma log10_ok x : log10 x = ln x / ln 10.
Proof. reflexivity. Qed.
Lemma decibel_ok g x : g = FV x -> 0 < x -> decibel g = FV (10 * (ln x / ln 10)).
Proof. intros -> H. unfold decibel. destruct (Rltb_spec 0 x); [reflexivity|contradiction]. Qed.
Lemma fdiv_finite a b : b <> 0 -> fdiv (FV a) (FV b) = FV (a / b).
Proof. intros H. unfold fdiv. destruct (Reqb_spec b 0); [contradiction|reflexivity]. Qed.
Lemma avail_ok V vgap z rn : Re z * rn <> 0 -> avail_power (FV V) vgap z rn = FV (10 ^ 9 * ((V * vgap) ^ 2 / (8 * (Re z * rn)))).
Proof.
  intros H. unfold avail_power. cbv zeta. cbn [fmul fabs]. rewrite !fdiv_finite by (assumption || lra || (apply Rgt_not_eq; lra)). f_equal.
  replace (Rabs (V * vgap) * Rabs (V * vgap)) with ((V * vgap) ^ 2) by (rewrite <- Rabs_mult, Rabs_pos_eq by nra; ring). field. split; [intros E; apply H; rewrite E; ring|]. intros E. apply H. rewrite E. ring.
Qed.
Lemma deliv_ok v vgap z rn : Re z * rn <> 0 -> deliv_power v vgap (Some z) rn = FV (10 ^ 9 * ((v * vgap) ^ 2 / (2 * (Re z * rn)))).
Proof.
  intros H. unfold deliv_power. rewrite !fdiv_finite by (assumption || lra || (apply Rgt_not_eq; lra)). f_equal. rewrite <- Rsqr_pow2, <- Rsqr_abs, Rsqr_pow2. field. split; [intros E; apply H; rewrite E; ring|]. intros E. apply H. rewrite E. ring.
Qed.

Section Oracles.
Variable argsort : list fl -> list nat.
Variable minimize : (R * R -> R) -> R * R -> R * R.
Variable savgol : list R -> Z -> Z -> list R.
Variable J : nat -> R -> R.
Variable spline dspline : list R -> list R -> Z -> R -> R.
Hypothesis KL : keeps_length savgol.
Hypothesis SO : sorting argsort.
Local Notation DCP := (dc_data_p argsort minimize savgol spline dspline).
Local Notation PUMPEDP := (pumped_data_p argsort savgol J).

Lemma dc_report verbose comment m dcif o out d : DCP verbose comment m dcif o = (out, Ok d) ->
  exists shot, out = warnings (dc_rn (d_dc d)) ++ shot ++ (if verbose then [Summary comment d] else []) /\
  match dcif with
  | None => shot = []
  | Some i => exists v p0 p c n, d_if d = Some (v, p, c) /\ load_if argsort i (d_dc d) (if_options o) = Ok (v, p0) /\
      samples_in_range savgol v p0 (dc_vgap (d_dc d)) (o_vshot o) n /\ shot = shot_warning n
  end.
Proof.
  intros H. unfold dc_data_p in H. peel H. rewrite curve_report in Q. destruct (dciv_curve minimize savgol argsort m (iv_options o)) as [[[v c] dc]|e] eqn:CU; [|congruence].
  assert (o0 = warnings (dc_rn dc)) by congruence. assert (a = (v, c, dc)) by congruence. subst o0 a. clear Q CU. hush H. hush H. hush H. rename a into s, a0 into r, a1 into rs. peel H. rename a into f. rename o0 into shot. cbv zeta in H. peel H. apply say_ok in Q3. subst o0.
  apply quietly_ok in H. destruct H as [-> H]. assert (E : d = {| d_voltage := v; d_current := c; d_dc := dc; d_summary := s; d_resp := r; d_resp_smear := rs; d_if := f |}) by congruence. clear H. rewrite <- E.
  assert (ED : d_dc d = dc) by (rewrite E; reflexivity). assert (EF : d_if d = f) by (rewrite E; reflexivity). exists shot. rewrite ED, EF. split; [rewrite app_nil_r; cbn [app]; reflexivity|].
  destruct dcif as [i|]; [|apply quietly_ok in Q2; destruct Q2 as [-> Q2]; reflexivity].
  peel Q2. apply quietly_ok in Q2. destruct Q2 as [-> Q2]. rewrite app_nil_r. rename a0 into res0. assert (f = Some res0) by congruence. subst f. clear Q2. unfold dcif_data_p in Q3. hush Q3. rename a0 into xp. destruct xp as [x p0]. cbn [app]. peel Q3. rename a0 into nc. destruct nc as [[[noise corr] sl] fit]. cbv zeta in Q3.
  hush Q3. rename a0 into top. apply quietly_ok in Q3. destruct Q3 as [-> Q3]. rewrite !app_nil_r. destruct (load_grid _ _ _ _ _ _ SO Q2) as [_ [EV LP]]. assert (L : length x = length p0) by (rewrite LP, EV; apply linspace_length).
  destruct (noise_report savgol KL x p0 dc _ _ _ L Q4) as [n [N ->]].
  exists x, p0, (map (fun a => a * corr) p0), {| if_noise := noise; if_corr := corr; if_fit := fit; if_shot := (x, sl); if_vmax := top * dc_vgap dc |}, n. split; [congruence|]. split; [assumption|]. split; [exact N|reflexivity].
Qed.

Lemma recovery_report idc ikk vgap rn v i vph q out r : recover_zemb_p J idc ikk vgap rn v i vph q = (out, Ok r) -> reports_recovery vgap rn vph r out.
Proof.
  intros H. unfold recover_zemb_p in H. hush H. destruct a as [lo hi]. peel H. apply say_ok in Q0. subst o. hush H. destruct a0 as [x y]. hush H. hush H. destruct a1 as [[al av] az]. hush H. hush H. destruct a2 as [[[es zt] vt] gf]. peel H. apply say_ok in Q5. subst o. peel H. apply say_ok in Q5. subst o. hush H. peel H. apply say_ok in Q6. subst o. apply quietly_ok in H. destruct H as [-> H].
  rename a4 into alpha, a1 into zw. assert (E : r = {| rec_zt := zt; rec_vt := vt; rec_fit := gf; rec_zw := zw; rec_alpha := alpha; rec_err := es |}) by congruence. clear H. rewrite E. exists (avail_power vt vgap zt rn), (deliv_power (alpha * vph) vgap zw rn). cbn [rec_zt rec_vt rec_fit rec_zw rec_alpha app]. split; [reflexivity|]. split.
  - intros V -> NZ. now apply avail_ok.
  - intros z -> NZ. now apply deliv_ok.
Qed.
Definition if_lines (verbose : bool) (n : ifresults) (l : list emsg) : Prop := if verbose then reports_best n l else l = [].
Lemma if_report verbose hot cold dc dcif q out vh ph pc tn gain idx cal : if_data_p argsort savgol verbose hot cold dc dcif q = (out, Ok (vh, ph, pc, tn, gain, idx, cal)) ->
  exists shot best, out = [AnalyzeIF] ++ shot ++ best /\
    match dcif with
    | Some _ => shot = []
    | None => exists h c n, load_if argsort hot dc q = Ok (vh, h) /\ load_if argsort cold dc q = Ok (vh, c) /\ samples_in_range savgol vh (map (fun k => (nth k h 0 + nth k c 0) / 2) (seq 0 (length vh))) (dc_vgap dc) (q_vshot q) n /\ shot = shot_warning n
    end /\ forall su, if_lines verbose {| n_voltage := vh; n_hot := ph; n_cold := pc; n_tn := tn; n_gain := gain; n_best := idx; n_dcif := cal; n_summary := su |} best.
Proof.
  intros H. unfold if_data_p in H. peelx H z1 u1 S1. uttered S1. peelx H z2 vp1 L1. apply quietly_ok in L1. destruct L1 as [-> L1]. destruct vp1 as [v1 h]. peelx H z2 vp2 L2. apply quietly_ok in L2. destruct L2 as [-> L2]. destruct vp2 as [v2 c].
  destruct (load_grid _ _ _ _ _ _ SO L1) as [_ [EV1 LH]]. destruct (load_grid _ _ _ _ _ _ SO L2) as [_ [EV2 LC]]. rewrite <- EV2 in EV1. subst v1.
  assert (LV : length v2 = q_npts q) by (rewrite EV2; apply linspace_length). peelx H shot nc Q1. destruct nc as [[[noise corr] fit] sh]. cbv zeta in H. peelx H best0 tg Q2. destruct tg as [[tn0 gain0] idx0]. peelx H z2 top Q3. apply quietly_ok in Q3. destruct Q3 as [-> Q3]. peelx H z2 u2 Q4. uttered Q4. apply quietly_ok in H. destruct H as [-> H].
  assert (vh = v2) by congruence. assert (tn0 = tn) by congruence. assert (gain0 = gain) by congruence. assert (idx0 = idx) by congruence. assert (EN : if_noise cal = noise) by (assert (EC : cal = {| if_noise := noise; if_corr := corr; if_fit := fit; if_shot := sh; if_vmax := top * dc_vgap dc |}) by congruence; rewrite EC; reflexivity).
  clear H. subst vh tn0 gain0 idx0. exists shot, (best0 ++ if verbose then [IFNoise noise] else []). split; [rewrite !app_nil_r; cbn [app]; reflexivity|]. split.
  - destruct dcif as [d|]; [apply quietly_ok in Q1; destruct Q1 as [-> _]; reflexivity|]. peelx Q1 z1 a1 B1. apply quietly_ok in B1. destruct B1 as [-> B1]. peelx Q1 z1 a2 B2. apply quietly_ok in B2. destruct B2 as [-> B2]. peelx Q1 z1 a3 B3. destruct a3 as [[[n' c'] l'] f']. apply quietly_ok in Q1. destruct Q1 as [-> _]. cbn [app]. rewrite app_nil_r.
    exists h, c. rewrite bcast_eq in B1 by congruence. rewrite bcast_eq in B2 by congruence.
    assert (E1 : a1 = v2) by (assert (X : a1 = average v2 v2) by (unfold average; congruence); rewrite X; apply average_self).
    assert (E2 : a2 = map (fun k => (nth k h 0 + nth k c 0) / 2) (seq 0 (length v2))).
    { assert (X : a2 = zipwith (fun a b => (a + b) / 2) h c) by congruence. rewrite X, LV. rewrite (list_tab h 0 (q_npts q) LH) at 1. rewrite (list_tab c 0 (q_npts q) LC) at 1. exact (zipwith_tab (fun a b => (a + b) / 2) (q_npts q) (fun k => nth k h 0) (fun k => nth k c 0)). }
    subst a1 a2. destruct (noise_report savgol KL v2 _ dc _ _ _ ltac:(now rewrite map_length, seq_length) B3) as [n [N ->]]. exists n. auto.
  - intros su. unfold if_lines. unfold find_tn_gain_p in Q2. peelx Q2 z1 tg B1. apply quietly_ok in B1. destruct B1 as [-> B1]. destruct tg as [[tn1 gain1] idx1]. peelx Q2 z1 u3 B2. apply quietly_ok in Q2. destruct Q2 as [-> Q2]. assert (tn1 = tn) by congruence. assert (gain1 = gain) by congruence. assert (idx1 = idx) by congruence. subst tn1 gain1 idx1. clear Q2.
    assert (M1 : length (map (fun a => a * corr) h) = length v2) by (rewrite map_length; congruence). assert (M2 : length (map (fun a => a * corr) c) = length v2) by (rewrite map_length; congruence). destruct (tn_gain_position _ _ _ _ _ _ _ _ M1 M2 B1) as [LT [LG LI]].
    destruct verbose; [|uttered B2; reflexivity]. destruct (pyget_at tn idx ltac:(lia)) as [t [PT NT]]. destruct (pyget_at gain idx ltac:(lia)) as [g [PG NG]]. rewrite PT, PG in B2. cbn in B2. assert (EO : z1 = [NoiseTemp t; Gain (decibel g)]) by congruence. subst z1.
    exists t, g, (decibel g). cbn [n_tn n_best n_gain n_dcif]. split; [assumption|]. split; [assumption|]. split; [apply decibel_ok|]. rewrite EN. reflexivity.
Qed.
Definition both_given (hot cold : option matrix) : bool := match hot, cold with Some _, Some _ => true | _, _ => false end.
Lemma pumped_report verbose comment m d hot cold o out u : PUMPEDP verbose comment m d hot cold o = (out, Ok u) ->
  exists rec iff, out = (if verbose then heading comment (both_given hot cold) (u_freq u) else []) ++ rec ++ iff ++ (if verbose then [Blank] else []) /\
    match u_recovered u with Some r => reports_recovery (dc_vgap (d_dc d)) (dc_rn (d_dc d)) (u_vph u) r rec | None => rec = [] end /\
    match u_if u with
    | None => iff = []
    | Some n => exists shot best, iff = [AnalyzeIF] ++ shot ++ best /\ (if verbose then reports_best n best else best = []) /\
        match d_if d with
        | Some _ => shot = []
        | None => exists hm cm h c k, hot = Some hm /\ cold = Some cm /\ load_if argsort hm (d_dc d) (if_options o) = Ok (n_voltage n, h) /\ load_if argsort cm (d_dc d) (if_options o) = Ok (n_voltage n, c) /\
            samples_in_range savgol (n_voltage n) (map (fun k => (nth k h 0 + nth k c 0) / 2) (seq 0 (length (n_voltage n)))) (dc_vgap (d_dc d)) (o_vshot o) k /\ shot = shot_warning k
        end
    end.
Proof.
  intros H. unfold pumped_data_p in H. cbv zeta in H. hush H. rename a into freq. hush H. rename a into q. peelx H z1 u1 Q1. uttered Q1. peelx H z1 vi QV. apply quietly_ok in QV. destruct QV as [-> QV]. destruct vi as [v i]. peelx H z1 rd QR. apply quietly_ok in QR. destruct QR as [-> QR]. peelx H ro rec Q3. peelx H fo f Q4. peelx H z1 u2 Q5. uttered Q5. apply quietly_ok in H. destruct H as [-> H].
  assert (E : u = {| u_freq := freq; u_vph := q * 10 ^ 9; u_voltage := v; u_current := i; u_rdyn := rd; u_recovered := rec; u_if := f |}) by congruence. clear H.
  exists ro, fo. rewrite E. cbn [u_freq u_vph u_recovered u_if]. split; [|split].
  - rewrite app_nil_r. cbn [app]. f_equal. destruct verbose; [|reflexivity]. unfold heading, both_given. destruct hot, cold; reflexivity.
  - destruct (o_analyze_iv o); [|apply quietly_ok in Q3; destruct Q3 as [-> Q3]; assert (rec = None) by congruence; subst rec; reflexivity]. peelx Q3 z1 a0 Q5. apply quietly_ok in Q5. destruct Q5 as [-> Q5]. peelx Q3 z1 a1 Q6. apply quietly_ok in Q3. destruct Q3 as [-> Q3]. rewrite app_nil_r. cbn [app]. assert (rec = Some a1) by congruence. subst rec.
    apply recovery_report in Q6. unfold quot in Q0, Q5. destruct (Reqb (dc_fgap (d_dc d)) 0); [discriminate|]. assert (EQ : a0 = q * 10 ^ 9). { assert (X : q = freq / dc_fgap (d_dc d)) by congruence. assert (Y : a0 = freq * 10 ^ 9 / dc_fgap (d_dc d)) by congruence. rewrite X, Y. unfold Rdiv. ring. } rewrite <- EQ. exact Q6.
  - destruct hot as [hm|]; [|apply quietly_ok in Q4; destruct Q4 as [-> Q4]; assert (f = None) by congruence; subst f; reflexivity]. destruct cold as [cm|]; [|apply quietly_ok in Q4; destruct Q4 as [-> Q4]; assert (f = None) by congruence; subst f; reflexivity].
    destruct (o_analyze_if o); [|apply quietly_ok in Q4; destruct Q4 as [-> Q4]; assert (f = None) by congruence; subst f; reflexivity].
    peelx Q4 z1 a0 Q5. destruct a0 as [[[[[[vh ph] pc] tn] gain] idx] cal]. peelx Q4 z2 a0 Q6. apply quietly_ok in Q6. destruct Q6 as [-> Q6]. apply quietly_ok in Q4. destruct Q4 as [-> Q4]. rewrite !app_nil_r. assert (EF : f = Some {| n_voltage := vh; n_hot := ph; n_cold := pc; n_tn := tn; n_gain := gain; n_best := idx; n_dcif := cal; n_summary := a0 |}) by congruence. rewrite EF.
    destruct (if_report verbose _ _ _ _ _ _ _ _ _ _ _ _ _ Q5) as [shot [best [-> [SH BE]]]]. exists shot, best. split; [reflexivity|]. split; [exact (BE a0)|]. unfold Model_Objects.calibration in SH. destruct (d_if d) as [x|]; [exact SH|]. destruct SH as [h [c [k [A [B [D ->]]]]]]. exists hm, cm, h, c, k. cbn [n_voltage]. auto 8.
Qed.
(** The heading is printed before the data are read. *)
Lemma heading_first comment m d hot cold o f : o_freq o = Some f -> dc_fgap (d_dc d) <> 0 -> exists rest, fst (PUMPEDP true comment m d hot cold o) = heading comment (both_given hot cold) f ++ rest.
Proof.
  intros F G. unfold pumped_data_p. cbv zeta. rewrite after_quiet, F. rewrite after_quiet. unfold quot. destruct (Reqb_spec (dc_fgap (d_dc d)) 0); [contradiction|]. rewrite after_say. cbn [fst]. eexists. f_equal. unfold heading, both_given. destruct hot, cold; reflexivity.
Qed.
End Oracles.

(** ** The text *)
Open Scope string_scope.
Lemma fixed_close plus w d x : near d (fixed plus w d x) x.
Proof.
  unfold near. pose proof (fixed_denotes plus w d x) as D. exists (round_dec d x). unfold fixed in *. set (n := Z.to_nat _) in *. unfold pad_left in *. set (sg := if Rltb x 0 then _ else _) in *.
  exists (times_nat " " (w - String.length (sg ++ digits (n / 10 ^ d) ++ "." ++ last_digits d n))), (sg ++ digits (n / 10 ^ d)), (last_digits d n).
  split; [exact D|]. split; [apply round_dec_error|]. split; [now rewrite !s_app_assoc|]. split; [apply blank_times|apply last_len].
Qed.
Lemma fixed_signed w d x : signed_near d (fixed true w d x) x.
Proof.
  split; [apply fixed_close|]. unfold fixed. set (n := Z.to_nat _). unfold pad_left. eexists _, _, _. split; [reflexivity|]. split; [apply blank_times|]. destruct (Rltb_spec x 0), (Rlt_dec x 0); try reflexivity; contradiction.
Qed.
Lemma fixed_value plus w d x : value_near plus d (fixed_fl plus w d x) x.
Proof.
  destruct x as [x| | |]; cbn [value_near fixed_fl].
  - destruct plus; [apply fixed_signed|apply fixed_close].
  - unfold pad_left. eexists. split; [|reflexivity]. apply blank_times.
  - unfold pad_left. eexists. split; [|reflexivity]. apply blank_times.
  - unfold pad_left. eexists. split; [|reflexivity]. apply blank_times.
Qed.
Lemma complex_signed w d (z : C) : signed_complex_near d (signed_complex w d (Some z)) z.
Proof. unfold signed_complex, pad_left. eexists _, _, _. split; [apply blank_times|]. split; [reflexivity|]. split; apply fixed_signed. Qed.
Lemma etext_says m : esays m (etext m).
Proof.
  destruct m; cbn [esays etext]; try reflexivity; try (eexists; split; [reflexivity|]; (apply fixed_value || apply fixed_signed || apply fixed_close || apply complex_signed)).
  - destruct (dc_str_ok comment d) as [t [T E]]. exists t. split; [exact T|]. rewrite E. reflexivity.
  - unfold line, coloured. cbn. repeat f_equal. now rewrite s_app_assoc.
  - eexists. split; [reflexivity|]. destruct z; [apply complex_signed|]. unfold signed_complex, pad_left. eexists. split; [|reflexivity]. apply blank_times.
Qed.
