(** Property C147: the samples that the shot-noise line is fitted to if no range is given.
    Vocabulary in Spec_IFData.v and Spec_IFShot.v. *)
From Coq Require Import List ZArith Bool Reals Lra Lia String.
From Verif Require Import Base Float NumPy Spec_CleanData Model_CleanData Spec_IVData Model_IVData Spec_IFData Model_IFData Spec_IFShot Proof_CleanData Proof_IFCases Proof_IFShot2 Proof_IFShot3 Proof_IFShot4.
Import ListNotations.
Open Scope R_scope.
Local Notation length := List.length.

(** ** C147 *)
(** Which samples are used, and the calibration with them. *)
Theorem C147_range : forall smooth, keeps_length smooth -> forall argsort m dc q v p meta,
  sorting argsort -> dcif_data smooth argsort m dc q = Ok (v, p, meta) -> q_vshot q = None -> 0 < dc_vgap dc -> 0 < q_vmax q -> (2 <= q_npts q)%nat ->
  exists p0 d1 d2 P a b, load_if argsort m dc q = Ok (v, p0) /\ p = map (fun a => a * if_corr meta) p0 /\ derivatives smooth v p0 d1 d2 /\ found_samples v p0 d1 d2 P /\ P <> [] /\
    best_line P a b /\ a <> 0 /\ if_corr meta * a = 5800 * dc_vgap dc /\ if_shot meta = (v, map (fun t => (a * t + b) * if_corr meta) v) /\
    joined v (snd (if_shot meta)) (nth 0 (snd (if_shot meta)) 0) (nth (length v - 1) (snd (if_shot meta)) 0) (dc_vint dc / dc_vgap dc) (if_noise meta) /\
    (if_fit meta = true <-> 0 < if_noise meta < 50) /\ if_vmax meta = q_vmax q.
Proof. exact dcif_auto. Qed.
Print Assumptions C147_range.
(** The same for a hot/cold measurement: the average of the powers is used. *)
Theorem C147_hot_cold : forall smooth, keeps_length smooth -> forall argsort hot cold dc q v ph pc tn gain idx meta,
  sorting argsort -> if_data smooth argsort hot cold dc None q = Ok (v, ph, pc, tn, gain, idx, meta) -> q_vshot q = None -> 0 < dc_vgap dc -> 0 < q_vmax q -> (2 <= q_npts q)%nat ->
  exists h c d1 d2 P a b, load_if argsort hot dc q = Ok (v, h) /\ load_if argsort cold dc q = Ok (v, c) /\ ph = map (fun a => a * if_corr meta) h /\ pc = map (fun a => a * if_corr meta) c /\
    let y := map (fun k => (nth k h 0 + nth k c 0) / 2) (seq 0 (length v)) in
    derivatives smooth v y d1 d2 /\ found_samples v y d1 d2 P /\ P <> [] /\
    best_line P a b /\ a <> 0 /\ if_corr meta * a = 5800 * dc_vgap dc /\ if_shot meta = (v, map (fun t => (a * t + b) * if_corr meta) v) /\
    joined v (snd (if_shot meta)) (nth 0 (snd (if_shot meta)) 0) (nth (length v - 1) (snd (if_shot meta)) 0) (dc_vint dc / dc_vgap dc) (if_noise meta) /\
    (if_fit meta = true <-> 0 < if_noise meta < 50) /\ if_vmax meta = q_vmax q.
Proof. exact if_auto. Qed.
Print Assumptions C147_hot_cold.
(** Only samples above 1.7 gap voltages are used. *)
Theorem C147_above : forall x y d1 d2 P p, length x = length y -> found_samples x y d1 d2 P -> In p P -> 17 / 10 < fst p /\ In p (List.combine x y).
Proof. exact found_above. Qed.
Print Assumptions C147_above.
(** So, if the powers above 1.7 gap voltages lie on a straight line that reaches 2 gap voltages,
    the calibration is exact, whatever the curve is below and whatever the filter does. *)
Theorem C147_exact : forall smooth, keeps_length smooth -> forall x y dc a b, length x = length y -> Spec_RespFn.increasing x -> (17 <= length x)%nat -> dc_vgap dc <> 0 -> a <> 0 ->
  (forall k, (k < length x)%nat -> 17 / 10 < nth k x 0 -> nth k y 0 = a * nth k x 0 + b) -> 2 < nth (length x - 2) x 0 ->
  exists n corr line fit, find_if_noise smooth x y dc None = Ok (n, corr, line, fit) /\ corr * a = 5800 * dc_vgap dc /\ line = map (fun t => (a * t + b) * corr) x /\
    (forall k, (k < length x)%nat -> 17 / 10 < nth k x 0 -> nth k y 0 * corr = 5800 * (nth k x 0 * dc_vgap dc) + b * corr) /\
    (nth 0 x 0 <= dc_vint dc / dc_vgap dc <= nth (length x - 1) x 0 -> n = 5800 * dc_vint dc + b * corr).
Proof. exact auto_exact. Qed.
Print Assumptions C147_exact.
(** On a straight line that begins 142 samples below 1.7 gap voltages, all samples above 1.7
    but the last are used, if the curve bends somewhere else (second derivative above 1e-8). *)
Theorem C147_found_partial : forall smooth, keeps_length smooth -> follows_lines smooth -> forall x st, 0 < st -> (forall k, (k < length x)%nat -> nth k x 0 = INR k * st) -> (51 <= length x)%nat ->
  forall y a b j d1 d2 P, length y = length x -> 0 < a -> (forall i, (j <= i < length x)%nat -> nth i y 0 = a * nth i x 0 + b) -> INR (j + 142) * st <= 17 / 10 -> derivatives smooth x y d1 d2 ->
  (exists i, (i < length x)%nat /\ / 10 ^ 8 < Rabs (nth i d2 0)) -> found_samples x y d1 d2 P -> (forall k, In (nth k x 0, nth k y 0) P -> (k < length x)%nat -> 17 / 10 < nth k x 0) /\
  (17 / 10 < nth (length x - 6) x 0 -> forall k, (k < length x - 1)%nat -> 17 / 10 < nth k x 0 -> In (nth k x 0, nth k y 0) P).
Proof. exact auto_found. Qed.
Print Assumptions C147_found_partial.
(** Missing: curves that do not bend.  No sample of a straight line is found, so the analysis
    ends with an error if no voltage exceeds 2 gap voltages. *)
Theorem C147_refuted_straight : forall smooth, keeps_length smooth -> follows_lines smooth -> forall argsort m dc q v p0 a b,
  sorting argsort -> load_if argsort m dc q = Ok (v, p0) -> q_vshot q = None -> 0 < dc_vgap dc -> 0 < q_vmax q <= 2 * dc_vgap dc -> (51 <= q_npts q)%nat -> a <> 0 ->
  (forall k, (k < q_npts q)%nat -> nth k p0 0 = a * nth k v 0 + b) -> dcif_data smooth argsort m dc q = Err ValueError.
Proof. exact straight_fails. Qed.
Print Assumptions C147_refuted_straight.
(** Powers that fall up to 0.6 gap voltages and then rise along a line up to 3. *)
Example C147_case : exists v p0 p d1 d2 P meta, load_if insertion_argsort kinked_file dc0 (q_auto 3) = Ok (v, p0) /\ dcif_data as_is insertion_argsort kinked_file dc0 (q_auto 3) = Ok (v, p, meta) /\
  derivatives as_is v p0 d1 d2 /\ found_samples v p0 d1 d2 P /\ length v = 401%nat /\ (forall k, (k < length v)%nat -> nth k v 0 = INR k * (3 / 400)) /\
  (forall k, (80 <= k < length v)%nat -> nth k p0 0 = 1 * nth k v 0 + - (6 / 10)) /\ INR (80 + 142) * (3 / 400) <= 17 / 10 /\ (exists i, (i < length v)%nat /\ / 10 ^ 8 < Rabs (nth i d2 0)) /\
  17 / 10 < nth (length v - 6) v 0 /\ if_corr meta = 5800.
Proof. exact kinked_case. Qed.
(** A straight line over 401 samples from 0 to 2 gap voltages. *)
Example C147_straight_case : keeps_length as_is /\ follows_lines as_is /\ sorting insertion_argsort /\ exists v p0, load_if insertion_argsort straight_file dc0 (q_auto 2) = Ok (v, p0) /\
  (forall k, (k < q_npts (q_auto 2))%nat -> nth k p0 0 = 1 * nth k v 0 + 1) /\ 17 / 10 < nth 350 v 0.
Proof. exact (conj as_is_length (conj as_is_lines (conj insertion_sorts straight_load))). Qed.
