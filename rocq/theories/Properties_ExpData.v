(** Properties C80, C81, C83-C85, C98, C99 and C101: impedance recovery and data objects
    (vocabulary in Spec_ExpData.v, Spec_IVData.v and Spec_IFData.v).  J n x stands for the
    Bessel function and is arbitrary, as are the response functions idc and ikk. *)
From Coq Require Import List ZArith Bool Reals Lra String.
From Coquelicot Require Import Complex.
From Verif Require Import Base Float Bessel Model_Tucker Model_IVData Model_ExpData Spec_RespFn Spec_IVData Spec_IFData Spec_ExpData Proof_Recover Proof_Recover2 Proof_Recover3 Proof_ExpData Proof_ExpCases Proof_ExpCases2 Proof_BesselVal.
Import ListNotations.
Open Scope R_scope.
Local Notation length := List.length.
Local Notation Forall := List.Forall.

(** ** C80 *)
(** The error is the least mismatch, and only the returned source voltage has it. *)
Theorem C80_least_squares : forall pts zs, connectable pts zs -> exists e V,
  error_function (map fst pts) (map (fun p => Some (snd p)) pts) zs = Ok (FV e) /\
  find_source_voltage (map fst pts) (map (fun p => Some (snd p)) pts) zs = Ok (FV V) /\
  0 <= V /\ e = mismatch pts zs V /\ (forall V', e <= mismatch pts zs V') /\ (forall V', mismatch pts zs V' = e -> V' = V) /\ 0 <= e.
Proof. exact error_minimum. Qed.
Print Assumptions C80_least_squares.
(** Data produced by a source Vs with impedance zs. *)
Theorem C80_exact : forall pts zs Vs, connectable pts zs -> (forall p, In p pts -> fst p = Cmult Vs (Cdiv (snd p) (Cplus zs (snd p)))) ->
  error_function (map fst pts) (map (fun p => Some (snd p)) pts) zs = Ok (FV 0) /\
  find_source_voltage (map fst pts) (map (fun p => Some (snd p)) pts) zs = Ok (FV (Cmod Vs)).
Proof. exact error_exact. Qed.
Print Assumptions C80_exact.
Theorem C80_zero_means_match : forall pts zs, connectable pts zs -> error_function (map fst pts) (map (fun p => Some (snd p)) pts) zs = Ok (FV 0) ->
  exists V, find_source_voltage (map fst pts) (map (fun p => Some (snd p)) pts) zs = Ok (FV V) /\
  forall p, In p pts -> Cmod (fst p) = V * Cmod (Cdiv (snd p) (Cplus zs (snd p))).
Proof. exact error_zero. Qed.
Print Assumptions C80_zero_means_match.
(** For all data, also with impedances that are not finite: undefined or not negative. *)
Theorem C80_never_negative : forall (pts : list (C * option C)) zs, exists e, error_function (map fst pts) (map snd pts) zs = Ok e /\ (e = FNaN \/ exists x, e = FV x /\ 0 <= x).
Proof. exact error_never_negative. Qed.
Print Assumptions C80_never_negative.
Example C80_case : (forall z, 0 < fst z -> connectable two z) /\ (exists V, mismatch two (1, 0) V = 0) /\ forall V, 1 / 1000 < mismatch two (1, 1) V.
Proof. split; [exact two_connectable|]. split; [apply two_fit; lra|exact two_misfit]. Qed.

(** ** C81 *)
(** B: the samples on the photon step; pts: AC voltages and impedances of the junction there.
    The recovered circuit has the least mismatch of all circuits on the grid with any
    source, and the flag tells whether its mismatch is small. *)
Theorem C81_best_partial : forall J idc ikk voltage current vph q r lo hi, length voltage = length current -> range_used q lo hi -> r_zemb q = None -> recover_zemb J idc ikk voltage current vph q = Ok r ->
  let B := step_samples vph lo hi voltage current in
  exists al, find_alpha J idc (map fst B) (map snd B) vph (r_alpha_max q) (r_num_b q) = Ok al /\
  let pts := map (fun p => junction_sample J idc ikk vph (r_num_b q) (fst (fst p)) (snd p)) (List.combine B al) in
  ((forall p, In p (List.combine B al) -> ac_current J idc ikk vph (snd p) (r_num_b q) (fst (fst p)) <> RtoC 0) ->
   (forall i j, (i <= 100)%nat -> (j <= 200)%nat -> connectable pts (grid_point (r_remb q) (r_xemb q) i j)) ->
   exists i j V, (i <= 100)%nat /\ (j <= 200)%nat /\ rec_zt r = grid_point (r_remb q) (r_xemb q) i j /\ rec_vt r = FV V /\
     (forall i' j' V', (i' <= 100)%nat -> (j' <= 200)%nat -> mismatch pts (rec_zt r) V <= mismatch pts (grid_point (r_remb q) (r_xemb q) i' j') V') /\
     (rec_fit r = true <-> mismatch pts (rec_zt r) V <= 7 / 10 ^ 7)).
Proof. exact recover_best. Qed.
Print Assumptions C81_best_partial.
Theorem C81_runs : forall J idc ikk voltage current vph q lo hi, length voltage = length current -> range_used q lo hi -> let B := step_samples vph lo hi voltage current in
  B <> [] -> (forall p, In p B -> pumped_iv J idc vph (r_alpha_max q) (r_num_b q) (fst p) <> idc (fst p)) -> exists r, recover_zemb J idc ikk voltage current vph q = Ok r.
Proof. exact recover_total. Qed.
Print Assumptions C81_runs.
(** With a forced impedance the flag tells about the grid instead. *)
Theorem C81_forced : forall J idc ikk voltage current vph q r lo hi z, length voltage = length current -> range_used q lo hi -> r_zemb q = Some z -> recover_zemb J idc ikk voltage current vph q = Ok r ->
  let B := step_samples vph lo hi voltage current in
  exists al, find_alpha J idc (map fst B) (map snd B) vph (r_alpha_max q) (r_num_b q) = Ok al /\
  let pts := map (fun p => junction_sample J idc ikk vph (r_num_b q) (fst (fst p)) (snd p)) (List.combine B al) in
  ((forall p, In p (List.combine B al) -> ac_current J idc ikk vph (snd p) (r_num_b q) (fst (fst p)) <> RtoC 0) ->
   (forall i j, (i <= 100)%nat -> (j <= 200)%nat -> connectable pts (grid_point (r_remb q) (r_xemb q) i j)) -> connectable pts z ->
   rec_zt r = z /\ (exists V, rec_vt r = FV V /\ forall V', mismatch pts z V <= mismatch pts z V') /\
     (rec_fit r = true <-> exists i j V, (i <= 100)%nat /\ (j <= 200)%nat /\ mismatch pts (grid_point (r_remb q) (r_xemb q) i j) V <= 7 / 10 ^ 7)).
Proof. exact recover_forced. Qed.
Print Assumptions C81_forced.
(** So there is data with the flag set although the returned impedance does not fit.  (The
    hypotheses hold for the Bessel functions: J_0(1.5) = 0.51..., J_1(1.5) = 0.55...) *)
Theorem C81_flag_refuted :
  exists idc ikk v i vph q r al, length v = length i /\ range_used q (1 / 4) (8 / 10) /\ recover_zemb besselJ idc ikk v i vph q = Ok r /\
  find_alpha besselJ idc (map fst (step_samples vph (1 / 4) (8 / 10) v i)) (map snd (step_samples vph (1 / 4) (8 / 10) v i)) vph (r_alpha_max q) (r_num_b q) = Ok al /\
  rec_fit r = true /\ forall V, 1 / 1000 < mismatch (map (fun p => junction_sample besselJ idc ikk vph (r_num_b q) (fst (fst p)) (snd p)) (List.combine (step_samples vph (1 / 4) (8 / 10) v i) al)) (rec_zt r) V.
Proof. destruct bessel_3_2 as (H0 & H1 & H2). exact (flag_forced besselJ H0 H1 H2). Qed.
Print Assumptions C81_flag_refuted.
(** One sample on the step whose current is not above the unpumped curve: whatever the other
    samples are, the result is the first grid point with an undefined source. *)
Theorem C81_undriven_refuted : forall J idc ikk voltage current vph q lo hi V I, J 0%nat 0 = 1 -> (forall n, (0 < n)%nat -> J n 0 = 0) -> length voltage = length current -> range_used q lo hi -> r_zemb q = None -> 0 < r_alpha_max q ->
  let B := step_samples vph lo hi voltage current in
  (forall p, In p B -> idc (fst p) < pumped_iv J idc vph (r_alpha_max q) (r_num_b q) (fst p)) -> In (V, I) B -> I <= idc V ->
  exists r, recover_zemb J idc ikk voltage current vph q = Ok r /\ rec_zt r = (fst (r_remb q), fst (r_xemb q)) /\ rec_vt r = FNaN /\ rec_fit r = false.
Proof. exact recover_undriven. Qed.
Print Assumptions C81_undriven_refuted.
Example C81_case : exists idc ikk v i vph q r al, length v = length i /\ range_used q (1 / 4) (8 / 10) /\ r_zemb q = None /\ recover_zemb besselJ idc ikk v i vph q = Ok r /\
  let B := step_samples vph (1 / 4) (8 / 10) v i in
  find_alpha besselJ idc (map fst B) (map snd B) vph (r_alpha_max q) (r_num_b q) = Ok al /\ (2 <= length B)%nat /\
  (forall p, In p (List.combine B al) -> ac_current besselJ idc ikk vph (snd p) (r_num_b q) (fst (fst p)) <> RtoC 0) /\
  (forall i j, (i <= 100)%nat -> (j <= 200)%nat -> connectable (map (fun p => junction_sample besselJ idc ikk vph (r_num_b q) (fst (fst p)) (snd p)) (List.combine B al)) (grid_point (r_remb q) (r_xemb q) i j)) /\ rec_fit r = true.
Proof. destruct bessel_3_2 as (H0 & H1 & H2). exact (best_case besselJ H0 H1 H2). Qed.
Example C81_undriven_case : lin_J 0 0 = 1 /\ (forall n, (0 < n)%nat -> lin_J n 0 = 0) /\ range_used (two_q None) (1 / 4) (8 / 10) /\
  let B := step_samples 1 (1 / 4) (8 / 10) [4 / 10; 6 / 10] [2; 9 / 10] in
  (forall p, In p B -> one_idc (fst p) < pumped_iv lin_J one_idc 1 (r_alpha_max (two_q None)) (r_num_b (two_q None)) (fst p)) /\ In (6 / 10, 9 / 10) B /\ 9 / 10 <= one_idc (6 / 10).
Proof. exact undriven_case. Qed.

(** ** C101 *)
(** The junction values are those of the sample nearest to the middle of the step. *)
Theorem C101_middle : forall J idc ikk voltage current vph q r lo hi, length voltage = length current -> range_used q lo hi -> recover_zemb J idc ikk voltage current vph q = Ok r ->
  let B := step_samples vph lo hi voltage current in
  exists al m, find_alpha J idc (map fst B) (map snd B) vph (r_alpha_max q) (r_num_b q) = Ok al /\ (m < length B)%nat /\
  (forall k, (k < length B)%nat -> Rabs (fst (nth m B (0, 0)) - (1 - vph / 2)) <= Rabs (fst (nth k B (0, 0)) - (1 - vph / 2))) /\
  rec_alpha r = nth m al 0 /\
  (ac_current J idc ikk vph (nth m al 0) (r_num_b q) (fst (nth m B (0, 0))) <> RtoC 0 -> rec_zw r = Some (snd (junction_sample J idc ikk vph (r_num_b q) (fst (nth m B (0, 0))) (nth m al 0)))).
Proof. exact recover_middle. Qed.
Print Assumptions C101_middle.

(** ** C83 *)
Theorem C83_not_negative : forall J idc v i vph amax nb l, length v = length i -> find_alpha J idc v i vph amax nb = Ok l ->
  length l = length v /\ forall k, (k < length v)%nat -> 0 <= nth k l 0.
Proof. exact alpha_nonneg. Qed.
Print Assumptions C83_not_negative.
(** t: the drive level that explains the current. *)
Theorem C83_finds : forall J idc v i vph amax nb l k t, length v = length i -> find_alpha J idc v i vph amax nb = Ok l -> 0 < amax -> (k < length v)%nat -> 0 <= t ->
  pumped_iv J idc vph t nb (nth k v 0) = nth k i 0 -> increasing_on (fun a => pumped_iv J idc vph a nb (nth k v 0)) 0 (t + amax / 2) ->
  Rabs (Rmax 0 ((nth k i 0 - idc (nth k v 0)) / (pumped_iv J idc vph amax nb (nth k v 0) - idc (nth k v 0)) * amax) - t) <= amax / 2 ->
  Rabs (nth k l 0 - t) <= amax / 2 ^ 16.
Proof. exact alpha_converges. Qed.
Print Assumptions C83_finds.
(** A drive level further than amax/2 from the first guess is never found. *)
Theorem C83_reach : forall J idc v i vph amax nb l k, length v = length i -> find_alpha J idc v i vph amax nb = Ok l -> 0 < amax -> (k < length v)%nat ->
  Rabs (nth k l 0 - Rmax 0 ((nth k i 0 - idc (nth k v 0)) / (pumped_iv J idc vph amax nb (nth k v 0) - idc (nth k v 0)) * amax)) < amax / 2.
Proof. exact alpha_reach. Qed.
Print Assumptions C83_reach.
Example C83_case : exists l, find_alpha lin_J one_idc [1 / 2] [4] 1 (3 / 2) 0 = Ok l /\ 0 < 3 / 2 /\ pumped_iv lin_J one_idc 1 1 0 (1 / 2) = 4 /\
  increasing_on (fun a => pumped_iv lin_J one_idc 1 a 0 (1 / 2)) 0 (1 + 3 / 2 / 2) /\
  Rabs (Rmax 0 ((4 - one_idc (1 / 2)) / (pumped_iv lin_J one_idc 1 (3 / 2) 0 (1 / 2) - one_idc (1 / 2)) * (3 / 2)) - 1) <= 3 / 2 / 2.
Proof. exact alpha_case. Qed.

(** ** C84 *)
(** fit_range=None with both cuts: as with fit_range=(cut_low, 1 - cut_high). *)
Theorem C84_cuts_partial : forall J idc ikk v i vph q lo hi, recover_zemb J idc ikk v i vph (with_cuts (with_range q (Some None)) (Some lo) (Some hi)) = recover_zemb J idc ikk v i vph (with_range q (Some (Some (lo, 1 - hi)))).
Proof. exact cut_options. Qed.
Print Assumptions C84_cuts_partial.
(** Only the samples in the interval matter. *)
Theorem C84_window : forall J idc ikk v i v' i' vph q lo hi, length v = length i -> length v' = length i' -> range_used q lo hi -> step_samples vph lo hi v i = step_samples vph lo hi v' i' ->
  recover_zemb J idc ikk v i vph q = recover_zemb J idc ikk v' i' vph q.
Proof. exact window_only. Qed.
Print Assumptions C84_window.
(** Without cut_low the cut_high that was given is ignored. *)
Theorem C84_low_missing : forall J idc ikk v i vph q hi, recover_zemb J idc ikk v i vph (with_cuts (with_range q (Some None)) None (Some hi)) = recover_zemb J idc ikk v i vph (with_range q None).
Proof. exact cut_low_missing. Qed.
Print Assumptions C84_low_missing.
(** Without cut_high the recovery fails instead of using the defaults. *)
Theorem C84_high_missing_refuted : forall J idc ikk v i vph q lo, recover_zemb J idc ikk v i vph (with_cuts (with_range q (Some None)) lo None) = Err TypeError.
Proof. exact cut_high_missing. Qed.
Print Assumptions C84_high_missing_refuted.
(** Unless fit_range=None is given, the cuts are ignored. *)
Theorem C84_cuts_ignored : forall J idc ikk v i vph q g cl ch, g <> Some None -> recover_zemb J idc ikk v i vph (with_cuts (with_range q g) cl ch) = recover_zemb J idc ikk v i vph (with_range q g).
Proof. exact cuts_ignored. Qed.
Print Assumptions C84_cuts_ignored.

(** ** C85 *)
Theorem C85_defaults : forall V (is_none : V -> bool) params acts, hget V (fst (run is_none (start params) acts)) params_id = params.
Proof. exact defaults_unchanged. Qed.
Print Assumptions C85_defaults.
(** After any other actions, before and after the object is created. *)
Theorem C85_dc : forall V (is_none : V -> bool) params acts kw later, NoDup (map fst kw) -> let s := run is_none (start params) acts in let n := length (snd s) in
  Forall (leaves n) later -> forall k, kwarg (run is_none s (NewDC V kw :: later)) n k = own_or_default params kw k.
Proof. exact dc_own. Qed.
Print Assumptions C85_dc.
Theorem C85_pumped : forall V (is_none : V -> bool) params acts kw later f, NoDup (map fst kw) -> own_or_default params kw "freq" = Some f -> is_none f = false -> let s := run is_none (start params) acts in let n := length (snd s) in
  Forall (leaves n) later -> forall k, kwarg (run is_none s (NewPumped V kw :: later)) n k = own_or_default params kw k.
Proof. exact pumped_own. Qed.
Print Assumptions C85_pumped.
(** Pumped data needs a frequency. *)
Theorem C85_frequency : forall V (is_none : V -> bool) params acts kw, NoDup (map fst kw) -> (own_or_default params kw "freq" = None \/ exists f, own_or_default params kw "freq" = Some f /\ is_none f = true) ->
  let s := run is_none (start params) acts in
  (exists e, snd (pumped_kwargs V is_none (fst s) kw) = Err e) /\ snd (run is_none s [NewPumped V kw]) = snd s.
Proof. exact pumped_needs_freq. Qed.
Print Assumptions C85_frequency.
Example C85_case : kwarg (run ex_none (start ex_params) ex_acts) 0 "area" = Some 3%nat /\ kwarg (run ex_none (start ex_params) ex_acts) 0 "num_b" = Some 9%nat /\
  kwarg (run ex_none (start ex_params) ex_acts) 1 "num_b" = Some 20%nat /\ kwarg (run ex_none (start ex_params) ex_acts) 1 "area" = Some 7%nat /\
  kwarg (run ex_none (start ex_params) ex_acts) 1 "freq" = Some 230%nat /\ snd (run ex_none (start ex_params) [NewPumped nat []]) = [].
Proof. exact own_case. Qed.

(** ** C98 *)
(** Subgap quality, current density and leakage current. *)
Theorem C98_summary : forall dc v i area vleak s, Spec_RespFn.increasing v -> length i = length v -> dc_summary dc v i area vleak = Ok s ->
  s_q s * dc_rn dc = dc_rsg dc /\ s_rna s = dc_rn dc * area / 10 ^ 12 /\ s_jc s * s_rna s = dc_vgap dc /\ dc_vgap dc <> 0 /\
  exists c, joined v i (nth 0 i 0) (nth (length v - 1) i 0) (vleak / dc_vgap dc) c /\ s_ileak s = c * dc_igap dc.
Proof. exact dc_summary_spec. Qed.
Print Assumptions C98_summary.
Theorem C98_runs : forall dc v i area vleak, length i = length v -> v <> [] -> dc_rn dc <> 0 -> area <> 0 -> dc_vgap dc <> 0 -> exists s, dc_summary dc v i area vleak = Ok s.
Proof. exact dc_summary_runs. Qed.
Print Assumptions C98_runs.

(** ** C99 *)
(** The values at the best bias voltage. *)
Theorem C99_best_bias : forall v i v_if tn gain idx rn s, length v = length i -> if_summary v i v_if tn gain idx rn = Ok s ->
  (idx < length tn)%nat /\ b_tn s = nth idx tn FNaN /\ (idx < length gain)%nat /\ nth idx gain FNaN = FV (b_gain s) /\ Rpower 10 (b_gdb s / 10) = b_gain s /\
  (idx < length v_if)%nat /\ b_v s = nth idx v_if 0 /\
  exists k a b, smallest (map (fun x => Rabs (x - b_v s)) v) k /\ best_line (firstn 10 (skipn k (List.combine v i))) a b /\ a <> 0 /\ b_zj s * a = rn.
Proof. exact if_summary_spec. Qed.
Print Assumptions C99_best_bias.
Example C99_case : exists s, if_summary [0; 1; 2] [0; 2; 4] [0; 1] [FV 50; FV 40] [FV 1; FV 2] 1 3 = Ok s.
Proof. exact best_bias_case. Qed.
