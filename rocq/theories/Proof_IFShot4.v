(** Measurements for which the theorems about the automatic range apply. *)
From Coq Require Import List ZArith Bool Lia Arith Reals Lra Permutation String.
From Verif Require Import Base Model_QtCurrent Proof_Circuit Proof_IVModels Float NumPy Proof_NumPy Spec_CleanData Proof_CleanData Model_CleanData Spec_MathFn Model_MathFn Spec_RespFn Model_RespFn Proof_RespFn2 Spec_IVData Model_IVData Proof_IVData Proof_IVCurve Spec_IFData Model_IFData Proof_IFNoise Proof_IFLoad Proof_IFShot Proof_IFCases Spec_IFShot Proof_IFShot2 Proof_IFShot3 Proof_Recover2.
Import ListNotations.
Open Scope R_scope.
Local Notation length := List.length.
Local Notation rising := Spec_RespFn.increasing.

(** No smoothing at all. *)
Definition as_is (l : list R) (w o : Z) : list R := l.
Lemma as_is_length : keeps_length as_is.
Proof. intros l w o. reflexivity. Qed.
Lemma as_is_lines : follows_lines as_is.
Proof. intros l w k a b W K H. apply H; [assumption|]. rewrite Z.sub_diag. cbn. lia. Qed.

(** Volts up to top, 401 samples, no range given; vgap is 1 V (dc0). *)
Definition q_auto (top : R) : ifparams :=
  {| q_v_fmt := "V"; q_v_multiplier := 1; q_sigma := None; q_vmax := top; q_npts := 401; q_rseries := None; q_vshot := None;
     q_freq := Some 230; q_t_hot := 293; q_t_cold := 79; q_vbest := None; q_best_pt := "Max Gain" |}.
Lemma load_pieces top xs ys : 0 < top -> length ys = length xs -> (2 <= length xs)%nat -> rising xs -> exists v p, load_if insertion_argsort {| ncols := 2; rows := measured xs ys |} dc0 (q_auto top) = Ok (v, p) /\
  length v = 401%nat /\ length p = 401%nat /\ (forall k, (k < 401)%nat -> nth k v 0 = INR k * (top / 400)) /\
  forall k j, (k < 401)%nat -> (S j < length xs)%nat -> nth j xs 0 <= nth k v 0 <= nth (S j) xs 0 ->
    nth k p 0 = nth j ys 0 + (nth (S j) ys 0 - nth j ys 0) * (nth k v 0 - nth j xs 0) / (nth (S j) xs 0 - nth j xs 0).
Proof.
  intros T L N RX. destruct (load_total insertion_argsort dc0 (q_auto top) 1 xs ys) as [v [p E]]; try reflexivity; try assumption; try (cbn; lra); [exact insertion_sorts|].
  exists v, p. split; [assumption|]. pose proof E as GR. apply load_grid in GR; [|exact insertion_sorts]. destruct GR as [_ [EV LP]]. cbn [q_auto q_vmax q_npts dc0 dc_vgap] in EV, LP.
  assert (NV : forall k, (k < 401)%nat -> nth k v 0 = INR k * (top / 400)). { intros k K. rewrite EV, linspace_nth by assumption. change (401 - 1)%nat with 400%nat. replace (INR 400) with 400 by (rewrite INR_IZR_INZ; reflexivity). field. }
  split; [rewrite EV; apply linspace_length|]. split; [assumption|]. split; [assumption|].
  rewrite (load_rows insertion_argsort dc0 (q_auto top) 1) in E by (assumption || reflexivity || exact insertion_sorts).
  unfold load_rest in E. cbn [q_auto q_v_multiplier q_rseries q_vmax q_npts q_sigma if_series bind dc0 dc_offset dc_vgap fst] in E. rewrite Reqb_f in E by lra. cbn [negb guard bind] in E. rewrite !map_map in E.
  rewrite (map_ext _ (fun a => a)) in E by (intros; field). rewrite map_id in E.
  destruct (strictly_increasing _); [|discriminate]. cbn [guard bind] in E. change (linspace 0 (top / 1) 401) with (linspace 0 (top / 1) 401) in E. rewrite <- EV in E.
  destruct (np_interp_zero v xs ys) as [p'|] eqn:EI; [|discriminate]. cbn [bind if_smooth] in E. apply ok_inj in E. apply (f_equal snd) in E. cbn [snd] in E. subst p'.
  apply interp_zero_inv in EI. destruct EI as [_ [_ ->]]. intros k j K J B. rewrite (nth_map_in _ v k 0 0) by (rewrite EV, linspace_length; assumption).
  assert (nth 0 xs 0 <= nth j xs 0) by (destruct j; [lra|left; apply RX; lia]). assert (nth (S j) xs 0 <= nth (length xs - 1) xs 0) by (destruct (Nat.eq_dec (S j) (length xs - 1)) as [->|]; [lra|left; apply RX; lia]).
  rewrite !Rltb_f by lra. cbn [orb]. now apply interp_closed.
Qed.
(** A straight line from 0 to 2 gap voltages. *)
Definition straight_file : matrix := {| ncols := 2; rows := measured [0; 3] [1; 4] |}.
Lemma inr_401 k : (k < 401)%nat -> 0 <= INR k <= 400.
Proof. intros K. split; [apply pos_INR|]. replace 400 with (INR 400) by (rewrite INR_IZR_INZ; reflexivity). apply le_INR. lia. Qed.
Lemma straight_load : exists v p0, load_if insertion_argsort straight_file dc0 (q_auto 2) = Ok (v, p0) /\ (forall k, (k < q_npts (q_auto 2))%nat -> nth k p0 0 = 1 * nth k v 0 + 1) /\ 17 / 10 < nth 350 v 0.
Proof.
  destruct (load_pieces 2 [0; 3] [1; 4]) as [v [p [E [LV [LP [NV NP]]]]]]; [lra|reflexivity|cbn; lia| |].
  { intros i j IJ Hj. destruct i as [|i], j as [|[|j]]; cbn [List.length nth] in *; try lia; lra. }
  exists v, p. split; [exact E|]. split.
  - intros k K. cbn [q_auto q_npts] in K. rewrite (NP k 0%nat K ltac:(cbn; lia)); cbn [nth]; [field|]. rewrite NV by assumption. pose proof (inr_401 k K). lra.
  - rewrite NV by lia. replace (INR 350) with 350 by (rewrite INR_IZR_INZ; reflexivity). lra.
Qed.
(** A kink at 0.6 gap voltages. *)
Definition kinked_file : matrix := {| ncols := 2; rows := measured [0; 6 / 10; 3] [12 / 10; 0; 24 / 10] |}.
Lemma span_mid x y s i : length y = length x -> NoDup x -> (17 <= length x)%nat -> slope_span_n x y 11 true = Ok (map FV s) -> (6 <= i)%nat -> (i + 6 < length x)%nat ->
  let r := (nth (i + 5) y 0 - nth (i - 6) y 0) / (nth (i + 5) x 0 - nth (i - 6) x 0) in nth i s 0 = if Reqb r 0 then tiny else r.
Proof.
  intros L ND N E I1 I2 r. destruct (Proof_Slope.span_spec x y L 5 ltac:(lia) true ltac:(lia)) as [d [E' [LD D]]]. change (2 * Z.of_nat 5 + 1)%Z with 11%Z in E'. rewrite E in E'. injection E' as <-. rewrite map_length in LD.
  specialize (D i ltac:(lia)). cbv zeta in D. assert (RW : Proof_Slope.raw x y 5 i = FV r).
  { unfold Proof_Slope.raw. cbv zeta. destruct (Nat.eqb_spec i 0); [lia|]. destruct (Nat.eqb_spec i (length x - 1)); [lia|]. destruct (Nat.leb_spec i 5); [lia|]. destruct (Nat.leb_spec (length x - 5) i); [lia|]. rewrite secant_finite by (assumption || lia). unfold r. replace (i - 5 - 1)%nat with (i - 6)%nat by lia. reflexivity. }
  rewrite RW in D. cbn [andb feq] in D. rewrite (nth_map_in FV s i _ 0) in D by lia. destruct (Reqb r 0); injection D as ->; reflexivity.
Qed.
Lemma kinked_load : exists v p0 d1 d2, load_if insertion_argsort kinked_file dc0 (q_auto 3) = Ok (v, p0) /\ length v = 401%nat /\ length p0 = 401%nat /\ (forall k, (k < 401)%nat -> nth k v 0 = INR k * (3 / 400)) /\
  (forall k, (80 <= k < 401)%nat -> nth k p0 0 = 1 * nth k v 0 + - (6 / 10)) /\ derivatives as_is v p0 d1 d2 /\ 36 < Rabs (nth 81 d2 0).
Proof.
  destruct (load_pieces 3 [0; 6 / 10; 3] [12 / 10; 0; 24 / 10]) as [v [p [E [LV [LP [NV NP]]]]]]; [lra|reflexivity|cbn; lia|apply rising3; lra|].
  assert (ST : 0 < 3 / 400) by lra. assert (GR : forall k, (k < length v)%nat -> nth k v 0 = INR k * (3 / 400)) by (intros k K; apply NV; congruence). pose proof (grid_nodup v (3 / 400) ST GR ltac:(lia)) as ND.
  assert (HI : forall k, (80 <= k < 401)%nat -> nth k p 0 = 1 * nth k v 0 + - (6 / 10)).
  { intros k K. assert (80 <= INR k) by (replace 80 with (INR 80) by (rewrite INR_IZR_INZ; reflexivity); apply le_INR; lia). pose proof (inr_401 k ltac:(lia)). rewrite (NP k 1%nat ltac:(lia) ltac:(cbn; lia)); cbn [nth]; [field|]. rewrite NV by lia. lra. }
  assert (LO : forall k, (k <= 80)%nat -> nth k p 0 = 12 / 10 - 2 * nth k v 0).
  { intros k K. assert (INR k <= 80) by (replace 80 with (INR 80) by (rewrite INR_IZR_INZ; reflexivity); apply le_INR; lia). pose proof (inr_401 k ltac:(lia)). rewrite (NP k 0%nat ltac:(lia) ltac:(cbn; lia)); cbn [nth]; [field|]. rewrite NV by lia. lra. }
  destruct (span11 v p ltac:(congruence) ND ltac:(lia)) as [s1 [E1 [L1 _]]]. destruct (span11 v s1 ltac:(congruence) ND ltac:(lia)) as [s2 [E2 [L2 _]]].
  exists v, p, s1, (map Rabs s2). split; [exact E|]. do 3 (split; [assumption|]). split; [assumption|]. split; [exists s1, s2; unfold as_is; auto|].
  assert (V : forall n z, (n < 401)%nat -> INR n = z -> nth n v 0 = z * (3 / 400)) by (intros n z K <-; now apply NV).
  assert (A1 : nth 75 s1 0 = -2).
  { rewrite (span_mid v p s1 75 ltac:(congruence) ND ltac:(lia) E1) by lia. cbn [Nat.add Nat.sub]. rewrite !LO by lia. rewrite (V 80%nat 80), (V 69%nat 69) by (lia || (rewrite INR_IZR_INZ; reflexivity)). replace ((12 / 10 - 2 * (80 * (3 / 400)) - (12 / 10 - 2 * (69 * (3 / 400)))) / (80 * (3 / 400) - 69 * (3 / 400))) with (-2) by field. now rewrite Reqb_f by lra. }
  assert (A2 : nth 86 s1 0 = 1).
  { rewrite (span_mid v p s1 86 ltac:(congruence) ND ltac:(lia) E1) by lia. cbn [Nat.add Nat.sub]. rewrite !HI by lia. rewrite (V 80%nat 80), (V 91%nat 91) by (lia || (rewrite INR_IZR_INZ; reflexivity)). replace ((1 * (91 * (3 / 400)) + - (6 / 10) - (1 * (80 * (3 / 400)) + - (6 / 10))) / (91 * (3 / 400) - 80 * (3 / 400))) with 1 by field. now rewrite Reqb_f by lra. }
  rewrite (nth_map_in Rabs s2 81 0 0) by lia. rewrite (span_mid v s1 s2 81 ltac:(congruence) ND ltac:(lia) E2) by lia. cbn [Nat.add Nat.sub]. rewrite A1, A2. rewrite (V 86%nat 86), (V 75%nat 75) by (lia || (rewrite INR_IZR_INZ; reflexivity)).
  replace ((1 - -2) / (86 * (3 / 400) - 75 * (3 / 400))) with (400 / 11) by field. rewrite Reqb_f by lra. rewrite !Rabs_pos_eq by (try apply Rabs_pos; lra). lra.
Qed.
(** Its calibration. *)
Lemma kinked_case : exists v p0 p d1 d2 P meta, load_if insertion_argsort kinked_file dc0 (q_auto 3) = Ok (v, p0) /\ dcif_data as_is insertion_argsort kinked_file dc0 (q_auto 3) = Ok (v, p, meta) /\
  derivatives as_is v p0 d1 d2 /\ found_samples v p0 d1 d2 P /\ length v = 401%nat /\ (forall k, (k < length v)%nat -> nth k v 0 = INR k * (3 / 400)) /\
  (forall k, (80 <= k < length v)%nat -> nth k p0 0 = 1 * nth k v 0 + - (6 / 10)) /\ INR (80 + 142) * (3 / 400) <= 17 / 10 /\ (exists i, (i < length v)%nat /\ / 10 ^ 8 < Rabs (nth i d2 0)) /\
  17 / 10 < nth (length v - 6) v 0 /\ if_corr meta = 5800.
Proof.
  destruct kinked_load as [v [p0 [d1 [d2 [E [LV [LP [NV [HI [DE CU]]]]]]]]]].
  assert (ST : 0 < 3 / 400) by lra. assert (GR : forall k, (k < length v)%nat -> nth k v 0 = INR k * (3 / 400)) by (intros k K; apply NV; congruence). pose proof (grid_rising v (3 / 400) ST GR ltac:(lia)) as RV.
  assert (V : forall n z, (n < 401)%nat -> INR n = z -> nth n v 0 = z * (3 / 400)) by (intros n z K <-; now apply NV).
  destruct (auto_exact as_is as_is_length v p0 dc0 1 (- (6 / 10)) ltac:(congruence) RV ltac:(lia) ltac:(cbn; lra) ltac:(lra)) as [n [corr [line [fit [F [C _]]]]]].
  { intros k K B. apply HI. split; [|lia]. rewrite NV in B by lia. apply Nat.lt_le_incl, INR_lt. replace (INR 80) with 80 by (rewrite INR_IZR_INZ; reflexivity). lra. }
  { rewrite LV. change (401 - 2)%nat with 399%nat. rewrite (V 399%nat 399) by (lia || (rewrite INR_IZR_INZ; reflexivity)). lra. }
  destruct (amax_some v) as [top T]; [intros ->; discriminate|].
  assert (SL := proj2 (slopes_spec as_is v p0 d1 d2) DE). destruct (slopes_lengths as_is as_is_length v p0 d1 d2 ltac:(congruence) SL) as [_ [L2 _]]. destruct (amax_some (map Rabs d2)) as [t2 T2]; [intros H; apply map_eq_nil in H; subst d2; cbn in L2; lia|].
  exists v, p0, (map (fun a => a * corr) p0), d1, d2, (auto_fit v p0 d1 d2 t2), {| if_noise := n; if_corr := corr; if_fit := fit; if_shot := (v, line); if_vmax := top * dc_vgap dc0 |}.
  split; [exact E|]. split; [unfold dcif_data; rewrite E; cbn [bind q_auto q_vshot]; rewrite F; cbn [bind]; rewrite T; reflexivity|]. split; [assumption|]. split; [now apply found|]. split; [assumption|]. split; [assumption|]. split; [intros k K; apply HI; lia|].
  split; [replace (INR (80 + 142)) with 222 by (rewrite INR_IZR_INZ; reflexivity); lra|]. split; [|split].
  - exists 81%nat. split; [lia|]. assert (/ 10 ^ 8 < 1) by (rewrite <- Rinv_1; apply Rinv_lt_contravar; lra). lra.
  - rewrite LV. change (401 - 6)%nat with 395%nat. rewrite (V 395%nat 395) by (lia || (rewrite INR_IZR_INZ; reflexivity)). lra.
  - cbn [if_corr]. cbn [dc0 dc_vgap] in C. lra.
Qed.
