(** The drive level and the circuit of a junction with a dominant first photon step. *)
From Coq Require Import List ZArith Lia Bool Arith Reals Lra Psatz.
From Coquelicot Require Import Coquelicot.
From Verif Require Import Base Sums Bessel Float NumPy Model_CleanData Model_QtCurrent Spec_QtCurrent Spec_Power Spec_QtApi Proof_QtCurrent Proof_QtWit Proof_Bessel Proof_BesselVal Proof_Weights Proof_Power Proof_Power3 Proof_JacobiAnger
  Proof_Known Model_Tucker Model_ExpData Spec_ExpData Spec_Known Proof_Recover2 Proof_Recover3 Proof_ExpCases Spec_Rise Proof_Rise.
Import ListNotations.
Open Scope list_scope.
Open Scope R_scope.
Local Notation length := List.length.

Lemma first_rises idc vph b v A : (1 <= b)%nat -> first_step idc vph b v -> 0 < A <= 3 / 2 -> pumped_iv besselJ idc vph A b v <> idc v.
Proof.
  intros B F HA. destruct (risen idc vph v b B F A ltac:(lra)) as [L _]. unfold cur in L. destruct F as (F0 & _). assert (0 < 597 / 1000 * (A / 2) ^ 2 * gain idc vph v 0); [|lra]. repeat apply Rmult_lt_0_compat; lra.
Qed.
Theorem inverts idc vph amax nb (P : list (R * R)) : (1 <= nb)%nat -> 0 < amax <= 3 / 2 ->
  (forall v t, In (v, t) P -> first_step idc vph nb v /\ 0 <= t <= amax) ->
  exists l, find_alpha besselJ idc (map fst P) (map (fun p => dc_current idc vph nb (fst p) (snd p)) P) vph amax nb = Ok l /\
    length l = length P /\ forall k, (k < length P)%nat -> Rabs (nth k l 0 - snd (nth k P (0, 0))) <= amax / 2 ^ 16.
Proof.
  intros NB HA H. set (B := map (fun p => (fst p, dc_current idc vph nb (fst p) (snd p))) P).
  assert (E1 : map fst P = map fst B) by (unfold B; rewrite map_map; reflexivity). assert (E2 : map (fun p => dc_current idc vph nb (fst p) (snd p)) P = map snd B) by (unfold B; rewrite map_map; reflexivity).
  destruct (alpha_total besselJ idc vph amax nb B) as [l E].
  { intros p Hp. unfold B in Hp. apply in_map_iff in Hp as ((v & t) & <- & IN). cbn [fst snd]. apply first_rises; [exact NB|apply (H v t IN)|exact HA]. }
  exists l. rewrite E1, E2. split; [exact E|]. assert (LL : length (map fst B) = length (map snd B)) by now rewrite !map_length. destruct (alpha_nonneg _ _ _ _ _ _ _ _ LL E) as [LA _]. split; [rewrite LA, <- E1; apply map_length|].
  intros k K. assert (KB : (k < length (map fst B))%nat) by (rewrite <- E1, map_length; exact K). assert (IN := nth_In P (0, 0) K). destruct (nth k P (0, 0)) as [v t] eqn:EK. destruct (H v t IN) as [F T]. cbn [snd].
  apply (first_finds idc _ _ vph amax nb l k t LL E KB NB); [|exact HA|exact T|].
  - rewrite <- E1, (nth_map_any fst P k (0, 0)), EK by exact K. exact F.
  - rewrite <- E1, <- E2, (nth_map_any fst P k (0, 0)), (nth_map_any (fun p => dc_current idc vph nb (fst p) (snd p)) P k (0, 0)), EK by exact K. cbn [fst snd]. now rewrite dc_is.
Qed.
Lemma first_slope idc vph b v : 0 < vph -> (forall x y, x <= y -> idc x <= idc y) -> first_step idc vph b v -> idc (v - vph) < idc (v + vph).
Proof.
  intros P M (F0 & _). unfold gain, pair in F0. cbn [INR] in F0. rewrite !Rmult_1_l, !Rmult_0_l, Rplus_0_r, Rminus_0_r in F0. assert (A := M (v - vph) v ltac:(lra)). assert (B := M v (v + vph) ltac:(lra)). lra.
Qed.
Theorem recovers idc ikk voltage current vph q lo hi i0 j0 Vs M :
  length voltage = length current -> range_used q lo hi -> r_zemb q = None ->
  0 < vph -> 0 < r_alpha_max q <= 3 / 2 -> (1 <= r_num_b q)%nat -> 0 < fst (r_remb q) -> fst (r_remb q) <= snd (r_remb q) -> (forall x y, x <= y -> idc x <= idc y) ->
  (i0 <= 100)%nat -> (j0 <= 200)%nat ->
  let zs := grid_point (r_remb q) (r_xemb q) i0 j0 in
  let B := step_samples vph lo hi voltage current in
  let A := r_alpha_max q in
  let D := A / 2 ^ 16 in
  let K := (vph + 6 * M * Cmod zs) * D in
  let e := A * vph * K / (Vs - K) in
  B <> [] -> K < Vs -> pumped_with idc ikk vph (r_num_b q) B zs Vs M A D ->
  exists r al V, recover_zemb besselJ idc ikk voltage current vph q = Ok r /\ length al = length B /\
    (forall k, (k < length B)%nat -> exists a, Rabs (nth k al 0 - a) <= D /\ dc_current idc vph (r_num_b q) (fst (nth k B (0, 0))) a = snd (nth k B (0, 0)) /\ driven_to idc ikk vph (r_num_b q) zs Vs (fst (nth k B (0, 0))) a) /\
    rec_vt r = FV V /\ mismatch (map (fun p => rf_sample idc ikk vph (r_num_b q) (fst (fst p)) (snd p)) (List.combine B al)) (rec_zt r) V <= e ^ 2 /\
    (e ^ 2 <= 7 / 10 ^ 7 -> rec_fit r = true).
Proof.
  intros L RU ZN P AM NB R1 R2 MI I0 J0 zs B A D K e BN KV HB.
  destruct (recover_total besselJ idc ikk voltage current vph q lo hi L RU) as [r E]; [exact BN| |].
  { fold B. intros [v i] Hp. cbn [fst]. apply first_rises; [exact NB|apply (HB v i Hp)|exact AM]. }
  assert (D0 : 0 <= D). { unfold D, A. apply Rmult_le_pos; [lra|]. left. apply Rinv_0_lt_compat, pow_lt. lra. }
  destruct (known idc ikk voltage current vph q r lo hi i0 j0 Vs M A L RU ZN E P (proj1 AM) NB R1 R2 MI I0 J0 (proj2 AM)) as (al & V & LA & HA & HV & HM & HF).
  - exact KV.
  - intros v i IN. destruct (HB v i IN) as (F & BS & a & Ha & DC & DR). split; [exact (first_slope _ _ _ _ P MI F)|]. split; [exact BS|]. exists a. split; [exact Ha|]. split; [|exact DR]. rewrite <- DC. apply first_findable; [exact NB|exact F|exact AM|]. fold A. unfold D in *. lra.
  - exists r, al, V. split; [exact E|]. split; [exact LA|]. split; [|split; [exact HV|split; [exact HM|exact HF]]].
    intros k Hk. destruct (HA k Hk) as (a & _ & ((DC & _) & DR) & NR). exists a. split; [exact NR|]. split; [exact DC|exact DR].
Qed.
(** ** qtcurrent *)
Theorem qt_rises vj vj' cct resp x y b row row' i : q_num_f cct = 1%nat -> q_num_p cct = 1%nat -> / 10000 < q_freq cct 1 ->
  (forall i, (i < q_npts cct)%nat -> vj 1%nat 1%nat i = RtoC (x * q_freq cct 1)) -> (forall i, (i < q_npts cct)%nat -> vj' 1%nat 1%nat i = RtoC (y * q_freq cct 1)) ->
  qtcurrent besselJ vj cct resp (FScalar 0) (NbInt b) None = Ok (QReal row) -> qtcurrent besselJ vj' cct resp (FScalar 0) (NbInt b) None = Ok (QReal row') ->
  (i < q_npts cct)%nat -> (1 <= b)%nat -> first_step (fun v => Im (resp v)) (q_freq cct 1) b (q_vb cct i) -> 0 <= x -> x < y -> y <= 9 / 4 ->
  nth i row 0 < nth i row' 0.
Proof.
  intros HF HP Hf Hv Hv' E E' Hi B F X XY Y. rewrite (one_dc vj cct resp x HF HP Hf Hv b row i E Hi), (one_dc vj' cct resp y HF HP Hf Hv' b row' i E' Hi). apply (rising (fun v => Im (resp v)) (q_freq cct 1) (q_vb cct i) b B F x y X XY Y).
Qed.
(** ** A junction with a gap at 1 and no current below it *)
Definition gap_idc (v : R) : R := if Rlt_dec (Rabs v) 1 then 0 else v.
Lemma gap_in v : -1 < v < 1 -> gap_idc v = 0.
Proof. intros H. unfold gap_idc. destruct Rlt_dec as [_|N]; [reflexivity|]. contradict N. apply Rabs_def1; lra. Qed.
Lemma gap_out v : v <= -1 \/ 1 <= v -> gap_idc v = v.
Proof. intros H. unfold gap_idc. destruct Rlt_dec as [N|_]; [|reflexivity]. apply Rabs_def2 in N. lra. Qed.
Lemma gap_mono x y : x <= y -> gap_idc x <= gap_idc y.
Proof. intros H. destruct (Rlt_dec (-1) x), (Rlt_dec x 1), (Rlt_dec (-1) y), (Rlt_dec y 1); try lra; repeat first [rewrite gap_in by lra | rewrite gap_out by lra]; lra. Qed.
Lemma gap_pairs : pair gap_idc (1 / 2) (3 / 4) 0 = 0 /\ pair gap_idc (1 / 2) (3 / 4) 1 = 5 / 4 /\ pair gap_idc (1 / 2) (3 / 4) 2 = 7 / 4 /\ pair gap_idc (1 / 2) (3 / 4) 3 = 9 / 4 /\ pair gap_idc (1 / 2) (3 / 4) 4 = 3 / 2.
Proof. unfold pair. cbn [INR]. repeat split; repeat first [rewrite gap_in by lra | rewrite gap_out by lra]; lra. Qed.
Lemma gap_step : first_step gap_idc (1 / 2) 4 (3 / 4).
Proof.
  destruct gap_pairs as (E0 & E1 & E2 & E3 & E4). unfold first_step, sum_to, gain. cbn [seq map fold_right Nat.sub]. rewrite E0, E1, E2, E3, E4. split; [lra|].
  rewrite (Rmax_right 0 (7 / 4 - 5 / 4)), (Rmax_right 0 (9 / 4 - 7 / 4)), (Rmax_left 0 (3 / 2 - 9 / 4)), (Rmax_left 0 (- (7 / 4 - 5 / 4))), (Rmax_left 0 (- (9 / 4 - 7 / 4))), (Rmax_right 0 (- (3 / 2 - 9 / 4))), (Rabs_pos_eq (3 / 2)) by lra. split; [lra|].
  unfold weight. replace (INR (fact 1)) with 1 by (cbn; lra). replace (INR (fact 2)) with 2 by (cbn; lra). replace (INR (fact 3)) with 6 by (cbn; lra). replace (INR (fact 4)) with 24 by (cbn; lra). replace (INR (fact 5)) with 120 by (cbn; lra). lra.
Qed.
