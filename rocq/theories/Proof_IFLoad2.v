(** Loaded IF powers measured through a series resistance. *)
From Coq Require Import List ZArith Lia Lra Bool Arith Reals String.
From Verif Require Import Base Proof_Filters Model_QtCurrent Float NumPy Proof_NumPy Proof_Circuit Proof_IVModels Spec_CleanData Model_CleanData Proof_CleanData Model_MathFn Spec_RespFn Model_RespFn Proof_RespFn2 Spec_IVData Model_IVData Proof_IVLoad Proof_IVData Proof_IVCurve Spec_IFData Model_IFData Proof_IFLoad.
Import ListNotations.
Open Scope R_scope.
Local Notation length := List.length.
Local Notation rising := Spec_RespFn.increasing.

Lemma load_general s m dc q V P : sorting s -> load_if s m dc q = Ok (V, P) -> 0 < dc_vgap dc ->
  exists u x y x', volts (q_v_fmt q) = Some u /\ clean_xy s (raw_v u m) (raw_p m) = Ok (map FV x, map FV y) /\ length x = length y /\
    if_series (map (fun a => a * q_v_multiplier q - fst (dc_offset dc)) x) dc (q_rseries q) = Ok x' /\ length x' = length y /\ (1 <= length x')%nat /\
    rising x' /\ length V = q_npts q /\ length P = q_npts q /\
    (forall k, (k < q_npts q)%nat -> nth k V 0 * dc_vgap dc = INR k * (q_vmax q / INR (q_npts q - 1))) /\
    exists P0, length P0 = q_npts q /\ (forall k, (k < q_npts q)%nat -> joined x' y 0 0 (nth k V 0 * dc_vgap dc) (nth k P0 0)) /\
      if_smooth V P0 (dc_vgap dc) (q_sigma q) = Ok P.
Proof.
  intros S H G. destruct (load_if_inv _ _ _ _ _ H) as [NC [u U]]. rewrite (load_if_eq s m dc q u S NC U) in H.
  destruct (clean_xy s (raw_v u m) (raw_p m)) as [[fx fy]|] eqn:C; [|discriminate]. cbn [bind fst snd] in H. destruct (reals fx) as [x|] eqn:EX; [|discriminate]. cbn [bind] in H. destruct (reals fy) as [y|] eqn:EY; [|discriminate]. cbn [bind] in H.
  apply reals_inv in EX, EY. subst fx fy. pose proof (clean_props s _ _ _ _ S C) as [LX _]. rewrite !map_length in LX.
  unfold load_rest in H. cbv zeta in H. rewrite map_map in H. destruct (if_series _ _ _) as [x'|] eqn:EI; [|discriminate]. cbn [bind] in H. rewrite Reqb_f in H by lra. cbn [negb guard bind] in H.
  destruct (strictly_increasing _) eqn:SI; [|discriminate]. cbn [guard bind] in H. 
  destruct (np_interp_zero _ _ _) as [P0|] eqn:EP; [|discriminate]. cbn [bind] in H. destruct (if_smooth _ _ _ _) as [P1|] eqn:ES; [|discriminate]. cbn [bind] in H. injection H as <- <-.
  apply increasing_rising in SI. apply interp_zero_inv in EP. destruct EP as [N [LE EP]]. rewrite map_length in N, LE.
  assert (NT : forall k, nth k (map (fun a => a / dc_vgap dc) x') 0 = nth k x' 0 / dc_vgap dc) by (intros k; apply (map_nth_zero (fun a => a / dc_vgap dc)); unfold Rdiv; ring).
  assert (RX : rising x'). { intros i j IJ J. pose proof (SI i j IJ ltac:(rewrite map_length; assumption)) as K. rewrite !NT in K. unfold Rdiv in K. apply Rmult_lt_reg_r in K; [assumption|now apply Rinv_0_lt_compat]. }
  assert (LP : length P0 = q_npts q) by (rewrite EP, map_length; apply linspace_length).
  exists u, x, y, x'. split; [assumption|]. split; [assumption|]. split; [assumption|]. split; [assumption|]. split; [lia|]. split; [lia|]. split; [assumption|]. split; [apply linspace_length|]. split.
  { unfold if_smooth in ES. destruct (q_sigma q); [|congruence]. destruct (pyget _ 1); [|discriminate]. cbn [bind] in ES. destruct (pyget _ 0); [|discriminate]. cbn [bind] in ES. destruct (quot _ _); [|discriminate]. cbn [bind] in ES. apply conv_length in ES. congruence. }
  split; [intros k K; apply grid0_nth; [assumption|lra]|]. exists P0. split; [assumption|]. split; [|assumption].
  intros k K. apply (joined_scaled x' y _ (dc_vgap dc)); [assumption|]. replace (nth k (linspace 0 (q_vmax q / dc_vgap dc) (q_npts q)) 0 * dc_vgap dc / dc_vgap dc) with (nth k (linspace 0 (q_vmax q / dc_vgap dc) (q_npts q)) 0) by (field; lra).
  rewrite EP. rewrite (nth_map_in _ _ k 0 0) by (now rewrite linspace_length). apply zero_joined; [assumption|rewrite map_length; lia|rewrite map_length; lia].
Qed.
Lemma load_range_all s m dc q V P lo hi : sorting s -> load_if s m dc q = Ok (V, P) -> 0 < dc_vgap dc -> lo <= 0 <= hi ->
  (forall r b, In r (rows m) -> nth 1 r FNaN = FV b -> lo <= b <= hi) -> Forall (fun a => lo <= a <= hi) P.
Proof.
  intros S H G Z B. destruct (load_general s m dc q V P S H G) as [u [x [y [x' [U [C [LX [EI [LX' [NX [RX [LV [LP [GR [P0 [LP0 [J SM]]]]]]]]]]]]]]]]]. apply smooth_range with (1 := SM).
  apply Forall_forall. intros a A. destruct (In_nth _ _ 0 A) as [k [K <-]]. rewrite LP0 in K. specialize (J k K).
  pose proof (clean_props s _ _ _ _ S C) as [_ [_ [_ [_ [PT _]]]]].
  apply (joined_range x' y (nth k V 0 * dc_vgap dc)); try assumption.
  intros j Hj. destruct (PT (FV (nth j x 0)) (FV (nth j y 0))) as [i [E1 E2]].
  - exists j. split; rewrite nth_error_map; (rewrite (nth_error_nth' _ 0) by lia); reflexivity.
  - unfold raw_p in E2. rewrite nth_error_map in E2. destruct (nth_error (rows m) i) as [r|] eqn:ER; [|discriminate]. cbn in E2. injection E2 as E2. apply nth_error_In in ER. now apply (B r).
Qed.
(** Static resistances *)
Lemma static_value v i r : (if flt (fdiv (FV v) (FV i)) (FV 0) then FV 0 else fdiv (FV v) (FV i)) = FV r -> static_resistance v i r.
Proof.
  unfold static_resistance, fdiv. destruct (Reqb_spec i 0) as [->|N].
  - unfold finf. destruct (Reqb_spec v 0); [discriminate|]. destruct (Rltb_spec v 0) as [H|H]; cbn; [|discriminate]. intros K. injection K as <-. right. auto.
  - cbn. intros K. left. split; [assumption|]. destruct (Rltb_spec (v / i) 0); injection K as <-; [rewrite Rmax_left by lra; reflexivity|rewrite Rmax_right by lra; reflexivity].
Qed.
Lemma bcast_same {A B C} (f : A -> B -> C) x y r : bcast f x y = Ok r -> length x = length y -> r = zipwith f x y.
Proof. intros H L. unfold bcast in H. rewrite L, Nat.eqb_refl in H. now injection H. Qed.
Lemma statics v i l r : length v = length i -> bcast fdiv (map FV v) (map FV i) = Ok l -> reals (map (fun r => if flt r (FV 0) then FV 0 else r) l) = Ok r ->
  length r = length v /\ forall k, (k < length v)%nat -> static_resistance (nth k v 0) (nth k i 0) (nth k r 0).
Proof.
  intros L B H. apply bcast_same in B; [|now rewrite !map_length]. subst l. apply reals_inv in H. revert i r L H. induction v as [|a v IH]; intros [|b i] r L H; try discriminate L.
  - destruct r; [|discriminate]. split; [reflexivity|cbn; lia].
  - cbn [map zipwith] in H. destruct r as [|c r]; [discriminate|]. cbn [map] in H. injection H as H1 H2. injection L as L. destruct (IH i r L H2) as [IH1 IH2]. split; [cbn; now f_equal|]. intros [|k] K; cbn [nth]; [now apply static_value|]. apply IH2. cbn in K. lia.
Qed.
Lemma series_voltages v dc rs x' : length (dc_vraw dc) = length (dc_iraw dc) -> rising (dc_vraw dc) -> if_series v dc (Some rs) = Ok x' ->
  exists r, length r = length (dc_vraw dc) /\ (forall k, (k < length (dc_vraw dc))%nat -> static_resistance (nth k (dc_vraw dc) 0) (nth k (dc_iraw dc) 0) (nth k r 0)) /\
    length x' = length v /\ forall k, (k < length v)%nat -> junction_voltage (dc_vraw dc) (dc_iraw dc) r rs (nth k v 0) (nth k x' 0).
Proof.
  intros L RV H. unfold if_series in H. destruct (bcast fdiv _ _) as [l|] eqn:EB; [|discriminate]. cbn [bind] in H. destruct (reals _) as [r|] eqn:ER; [|discriminate]. cbn [bind] in H.
  destruct (statics _ _ _ _ L EB ER) as [LR SR]. destruct (np_interp v (dc_vraw dc) r) as [a|] eqn:E1; [|discriminate]. cbn [bind] in H. destruct (np_interp v (dc_vraw dc) (dc_iraw dc)) as [b|] eqn:E2; [|discriminate]. cbn [bind] in H.
  apply np_interp_inv in E1, E2. destruct E1 as [-> [N1 N2]], E2 as [-> _]. apply bcast_same in H; [|now rewrite !map_length]. subst x'. exists r. split; [assumption|]. split; [assumption|].
  assert (LZ : forall (f : R -> R) (g : R -> R), zipwith Rmult (map f v) (map (fun t => t - rs) (map g v)) = map (fun t => f t * (g t - rs)) v) by (intros f g; clear; induction v as [|c v IH]; [reflexivity|]; cbn [map zipwith]; now rewrite IH).
  rewrite LZ. split; [apply map_length|]. intros k K. rewrite (nth_map_in _ v k 0 0) by assumption. eexists. eexists. split; [|split; [|reflexivity]]; apply interp_joined; try assumption; lia.
Qed.
Lemma load_series s m dc q rs V P : sorting s -> load_if s m dc q = Ok (V, P) -> q_rseries q = Some rs -> 0 < dc_vgap dc -> length (dc_vraw dc) = length (dc_iraw dc) -> rising (dc_vraw dc) ->
  exists u x y x' r, volts (q_v_fmt q) = Some u /\ clean_xy s (raw_v u m) (raw_p m) = Ok (map FV x, map FV y) /\ length x = length y /\ length x' = length x /\
    length r = length (dc_vraw dc) /\ (forall k, (k < length (dc_vraw dc))%nat -> static_resistance (nth k (dc_vraw dc) 0) (nth k (dc_iraw dc) 0) (nth k r 0)) /\
    (forall k, (k < length x)%nat -> junction_voltage (dc_vraw dc) (dc_iraw dc) r rs (nth k x 0 * q_v_multiplier q - fst (dc_offset dc)) (nth k x' 0)) /\
    rising x' /\ length V = q_npts q /\ length P = q_npts q /\
    (forall k, (k < q_npts q)%nat -> nth k V 0 * dc_vgap dc = INR k * (q_vmax q / INR (q_npts q - 1))) /\
    exists P0, length P0 = q_npts q /\ (forall k, (k < q_npts q)%nat -> joined x' y 0 0 (nth k V 0 * dc_vgap dc) (nth k P0 0)) /\
      if_smooth V P0 (dc_vgap dc) (q_sigma q) = Ok P.
Proof.
  intros S H RS G L RV. destruct (load_general s m dc q V P S H G) as [u [x [y [x' [U [C [LX [EI [LX' [NX [RX [LV [LP [GR R]]]]]]]]]]]]]]. rewrite RS in EI.
  destruct (series_voltages _ _ _ _ L RV EI) as [r [LR [SR [LL JV]]]]. rewrite map_length in LL, JV. exists u, x, y, x', r. split; [assumption|]. split; [assumption|]. split; [assumption|]. split; [assumption|]. split; [assumption|]. split; [assumption|]. split.
  { intros k K. specialize (JV k K). rewrite (nth_map_in (fun a => a * q_v_multiplier q - fst (dc_offset dc)) x k 0 0) in JV by assumption. exact JV. }
  split; [assumption|]. split; [assumption|]. split; [assumption|]. split; assumption.
Qed.
(** At the voltages of the DC curve it is the voltage without the drop across rs. *)
Lemma junction_at v i r rs k c : rising v -> (forall j, (j < length v)%nat -> static_resistance (nth j v 0) (nth j i 0) (nth j r 0)) -> (k < length v)%nat -> nth k i 0 <> 0 -> 0 <= nth k v 0 / nth k i 0 ->
  junction_voltage v i r rs (nth k v 0) c -> c = nth k v 0 - rs * nth k i 0.
Proof.
  intros RV SR K NZ NN [cur [res [[_ [_ [A _]]] [[_ [_ [B _]]] ->]]]]. rewrite (A k K eq_refl), (B k K eq_refl). destruct (SR k K) as [[_ E]|[E _]]; [|contradiction]. rewrite E, Rmax_right by assumption. field. assumption.
Qed.
(** ** A case *)
Definition series_dc : dcivdata :=
  {| dc_vraw := [1; 3]; dc_iraw := [1 / 2; 3 / 2]; dc_vnorm := []; dc_inorm := []; dc_vgap := 1; dc_igap := 1; dc_fgap := 1; dc_rn := 1; dc_rsg := 1;
     dc_offset := (0, 0); dc_vint := 0; dc_rseries := Some (1 / 2) |}.
Definition series_q : ifparams :=
  {| q_v_fmt := "mV"; q_v_multiplier := 1; q_sigma := None; q_vmax := 2; q_npts := 3; q_rseries := Some (1 / 2); q_vshot := None;
     q_freq := Some 230; q_t_hot := 293; q_t_cold := 79; q_vbest := None; q_best_pt := "Max Gain" |}.
Lemma series_case : exists V P, load_if insertion_argsort {| ncols := 2; rows := measured [1000; 2000; 3000] [1; 2; 3] |} series_dc series_q = Ok (V, P) /\
  rising (dc_vraw series_dc) /\ length (dc_vraw series_dc) = length (dc_iraw series_dc).
Proof.
  assert (RV : rising (dc_vraw series_dc)) by (intros i j IJ J; cbn in *; destruct i as [|[|i]], j as [|[|j]]; try lia; cbn; lra).
  assert (R3 : rising [1000; 2000; 3000]) by (intros i j IJ J; cbn in *; destruct i as [|[|[|i]]], j as [|[|[|j]]]; try lia; cbn; lra).
  rewrite (load_rows insertion_argsort series_dc series_q (/ 10 ^ 3)); [|exact insertion_sorts|reflexivity|reflexivity|cbn; lia|assumption].
  unfold load_rest. cbv zeta. cbn [series_q q_rseries q_v_multiplier q_sigma q_vmax q_npts series_dc dc_offset dc_vgap fst]. set (v := map _ (map _ (map _ [1000; 2000; 3000]))).
  assert (EV : v = [1; 2; 3]) by (unfold v; cbn [map]; repeat (f_equal; try lra)). rewrite EV. clear v EV.
  assert (EI : if_series [1; 2; 3] series_dc (Some (1 / 2)) = Ok [1 / 2 * (2 - 1 / 2); 1 * (2 - 1 / 2); 3 / 2 * (2 - 1 / 2)]).
  { unfold if_series. cbn [series_dc dc_vraw dc_iraw map]. unfold bcast at 1. cbn [List.length Nat.eqb zipwith bind map]. unfold fdiv. rewrite !Reqb_f by lra. cbn [flt map]. rewrite !Rltb_f by lra. cbn [reals mapM bind]. unfold np_interp. cbn [List.length Nat.eqb negb guard bind map].
    pose proof (interp_joined [1; 3] [1 / (1 / 2); 3 / (3 / 2)]) as JR. pose proof (interp_joined [1; 3] [1 / 2; 3 / 2]) as JI. cbn [List.length] in JR, JI.
    assert (A : forall t, 1 <= t <= 3 -> np_interp1 [1; 3] [1 / (1 / 2); 3 / (3 / 2)] t = 2). { intros t T. destruct (JR t RV ltac:(lia) ltac:(lia)) as [_ [_ [_ K]]]. rewrite (K 0%nat); [cbn; field|cbn; lia|cbn; lra]. }
    assert (B : forall t, 1 <= t <= 3 -> np_interp1 [1; 3] [1 / 2; 3 / 2] t = t / 2). { intros t T. destruct (JI t RV ltac:(lia) ltac:(lia)) as [_ [_ [_ K]]]. rewrite (K 0%nat); [cbn; field|cbn; lia|cbn; lra]. }
    rewrite !A, !B by lra. unfold bcast. cbn [List.length Nat.eqb zipwith]. repeat (f_equal; try lra). }
  change {| dc_vraw := [1; 3]; dc_iraw := [1 / 2; 3 / 2]; dc_vnorm := []; dc_inorm := []; dc_vgap := 1; dc_igap := 1; dc_fgap := 1; dc_rn := 1; dc_rsg := 1; dc_offset := (0, 0); dc_vint := 0; dc_rseries := Some (1 / 2) |} with series_dc.
  rewrite EI. cbn [bind]. rewrite Reqb_f by lra. cbn [negb guard bind map]. rewrite rising_increasing by (intros i j IJ J; cbn in *; destruct i as [|[|[|i]]], j as [|[|[|j]]]; try lia; cbn; lra). cbn [guard bind].
  unfold np_interp_zero, np_interp. cbn [List.length Nat.eqb negb guard bind if_smooth]. eexists. eexists. split; [reflexivity|]. split; [assumption|reflexivity].
Qed.

(** What smoothing does, in the statements. *)
Lemma samples_smoothed : forall argsort m dc q V P, sorting argsort -> load_if argsort m dc q = Ok (V, P) -> q_rseries q = None -> 0 < dc_vgap dc ->
  exists u x y, volts (q_v_fmt q) = Some u /\
    clean_xy argsort (map (fun r => fmul (nth 0 r FNaN) (FV u)) (rows m)) (map (fun r => nth 1 r FNaN) (rows m)) = Ok (map FV x, map FV y) /\ List.length x = List.length y /\
    let x' := map (fun a => a * q_v_multiplier q - fst (dc_offset dc)) x in
    Spec_RespFn.increasing x' /\ List.length V = q_npts q /\ List.length P = q_npts q /\
    (forall k, (k < q_npts q)%nat -> nth k V 0 * dc_vgap dc = INR k * (q_vmax q / INR (q_npts q - 1))) /\
    exists P0, List.length P0 = q_npts q /\ (forall k, (k < q_npts q)%nat -> joined x' y 0 0 (nth k V 0 * dc_vgap dc) (nth k P0 0)) /\
      smoothed_powers (dc_vgap dc) V P0 (q_sigma q) P.
Proof.
  intros s m dc q V P S H RS G. destruct (load_samples s m dc q V P S H RS G) as [u [x [y [U [C [LX [RX [LV [LP [GR [P0 [L0 [J SM]]]]]]]]]]]]].
  exists u, x, y. repeat (split; [assumption|]). exists P0. repeat (split; [assumption|]). now apply smooth_average.
Qed.
Lemma series_smoothed : forall argsort m dc q rs V P, sorting argsort -> load_if argsort m dc q = Ok (V, P) -> q_rseries q = Some rs -> 0 < dc_vgap dc ->
  List.length (dc_vraw dc) = List.length (dc_iraw dc) -> Spec_RespFn.increasing (dc_vraw dc) ->
  exists u x y x' r, volts (q_v_fmt q) = Some u /\
    clean_xy argsort (map (fun r => fmul (nth 0 r FNaN) (FV u)) (rows m)) (map (fun r => nth 1 r FNaN) (rows m)) = Ok (map FV x, map FV y) /\ List.length x = List.length y /\
    List.length x' = List.length x /\ List.length r = List.length (dc_vraw dc) /\
    (forall k, (k < List.length (dc_vraw dc))%nat -> static_resistance (nth k (dc_vraw dc) 0) (nth k (dc_iraw dc) 0) (nth k r 0)) /\
    (forall k, (k < List.length x)%nat -> junction_voltage (dc_vraw dc) (dc_iraw dc) r rs (nth k x 0 * q_v_multiplier q - fst (dc_offset dc)) (nth k x' 0)) /\
    Spec_RespFn.increasing x' /\ List.length V = q_npts q /\ List.length P = q_npts q /\
    (forall k, (k < q_npts q)%nat -> nth k V 0 * dc_vgap dc = INR k * (q_vmax q / INR (q_npts q - 1))) /\
    exists P0, List.length P0 = q_npts q /\ (forall k, (k < q_npts q)%nat -> joined x' y 0 0 (nth k V 0 * dc_vgap dc) (nth k P0 0)) /\
      smoothed_powers (dc_vgap dc) V P0 (q_sigma q) P.
Proof.
  intros s m dc q rs V P S H RS G L RV. destruct (load_series s m dc q rs V P S H RS G L RV) as [u [x [y [x' [r [U [C [LX [LX' [LR [SR [JV [RX [LV [LP [GR [P0 [L0 [J SM]]]]]]]]]]]]]]]]]]].
  exists u, x, y, x', r. repeat (split; [assumption|]). exists P0. repeat (split; [assumption|]). now apply smooth_average.
Qed.
