(** Proofs about the recovery with drive levels that are not finite. *)
From Coq Require Import List ZArith Reals Lra Lia Bool Arith.
From Coquelicot Require Import Coquelicot.
From Verif Require Import Base Float NumPy Model_QtCurrent Model_CleanData Model_RespFn Model_Tucker Model_IVData Model_ExpData Spec_QtCurrent Spec_CleanData Spec_IVData Spec_IFData Spec_ExpData Proof_NumPy Proof_Circuit Proof_HB Proof_HB2 Proof_RespFn2 Proof_CleanData Proof_IVModels Proof_IVLoad Proof_IVData Proof_IVCurve Proof_IFNoise Proof_Recover Proof_Recover2 Proof_Recover3 Model_RecoverAll Bessel Proof_Rise.
Import ListNotations.
Open Scope R_scope.
Local Notation length := List.length.
Local Notation Forall := List.Forall.

Section All.
Variable J : nat -> R -> R.
Variables idc ikk : R -> R.

(** ** Drive levels *)
Lemma first_level_ok vph amax nb v i g : first_alpha J idc vph amax nb v i = Ok g -> first_level J idc vph amax nb v i = FV g.
Proof.
  unfold first_alpha, first_level, quot. intros H. set (d := pumped_iv J idc vph amax nb v - idc v) in *. cbn [fdiv]. destruct (Reqb d 0); [discriminate|]. cbn [bind] in H. cbn [fmul flt]. destruct (Rltb _ 0); inversion H; reflexivity.
Qed.
Lemma refine_levels f i n : forall a s, Nat.iter n (refine_level f i) (FV a, s) = (FV (fst (Nat.iter n (refine f i) (a, s))), snd (Nat.iter n (refine f i) (a, s))).
Proof.
  induction n as [|n IH]; intros a s; [reflexivity|]. cbn [Nat.iter nat_rect]. unfold Nat.iter in IH |- *. rewrite IH. unfold refine_level. cbn [fst snd]. rewrite <- surjective_pairing. destruct (refine f i _) as [a' s']. reflexivity.
Qed.
Lemma refine_stuck f i n x : forall s, (forall a, x <> FV a) -> fst (Nat.iter n (refine_level f i) (x, s)) = x.
Proof.
  intros s N. induction n as [|n IH]; [reflexivity|]. cbn [Nat.iter nat_rect]. unfold Nat.iter in IH |- *. unfold refine_level at 1. rewrite IH. destruct x; [now destruct (N x)|reflexivity|reflexivity|reflexivity].
Qed.
Definition level_at (vph amax : R) (nb : nat) (vi : R * R) : fl :=
  fst (Nat.iter 15 (refine_level (fun a => pumped_iv J idc vph a nb (fst vi)) (snd vi)) (first_level J idc vph amax nb (fst vi) (snd vi), (amax / 4)%R)).
Lemma find_levels_eq vph amax nb B : find_levels J idc (map fst B) (map snd B) vph amax nb = Ok (map (level_at vph amax nb) B).
Proof. unfold find_levels. rewrite bcast_eq by now rewrite !map_length. cbn [bind]. rewrite zip_map2. f_equal. rewrite map_map. apply map_ext. intros [v i]. unfold level_at. cbn [fst snd]. reflexivity. Qed.
Lemma levels_agree vph amax nb B al : find_alpha J idc (map fst B) (map snd B) vph amax nb = Ok al -> map (level_at vph amax nb) B = map FV al.
Proof.
  unfold find_alpha. rewrite bcast_eq by now rewrite !map_length. cbn [bind]. rewrite zip_map2. revert al. induction B as [|[v i] B IH]; intros al H; cbn [map mapM fst snd] in *.
  - apply ok_inj in H. subst al. reflexivity.
  - apply bind_ok in H as (x & E & H). apply bind_ok in E as (a & Ea & E). apply ok_inj in E. apply bind_ok in H as (ys & EY & H). apply ok_inj in H. subst al. cbn [map]. rewrite (IH ys EY). f_equal.
    unfold level_at. cbn [fst snd]. rewrite (first_level_ok _ _ _ _ _ _ Ea), refine_levels. cbn [fst]. now rewrite E.
Qed.
Theorem level_cases vph amax nb v i : 0 < amax -> let x := level_at vph amax nb (v, i) in let same := pumped_iv J idc vph amax nb v = idc v in
  (x = FNaN <-> same /\ i = idc v) /\ (x = FPInf <-> same /\ idc v < i) /\ x <> FNInf /\ (forall a, x = FV a -> 0 <= a).
Proof.
  intros A x same.
  assert (P : (same /\ i = idc v /\ x = FNaN) \/ (same /\ idc v < i /\ x = FPInf) \/ ((same -> i < idc v) /\ exists a, 0 <= a /\ x = FV a)).
  { unfold x, level_at, first_level, same. cbn [fst snd]. set (p := pumped_iv J idc vph amax nb v). set (f := fun a => pumped_iv J idc vph a nb v).
    assert (FIN : forall g, 0 <= g -> exists a, 0 <= a /\ fst (Nat.iter 15 (refine_level f i) (FV g, amax / 4)) = FV a).
    { intros g G. rewrite refine_levels. cbn [fst]. eexists. split; [|reflexivity]. now apply iter_nonneg. }
    cbn [fdiv]. destruct (Reqb_spec (p - idc v) 0) as [Z | Z].
    - destruct (Reqb_spec (i - idc v) 0) as [W | W].
      + left. split; [lra|]. split; [lra|]. cbn [fmul flt]. apply refine_stuck. discriminate.
      + unfold finf. destruct (Rltb_spec (i - idc v) 0) as [U | U]; cbn [fmul].
        * right. right. split; [intros _; lra|]. destruct (Reqb_spec amax 0); [lra|]. unfold finf. destruct (Rltb_spec (- amax) 0); [|lra]. cbn [flt]. apply FIN. lra.
        * right. left. split; [lra|]. split; [lra|]. destruct (Reqb_spec amax 0); [lra|]. unfold finf. destruct (Rltb_spec amax 0); [lra|]. cbn [flt]. apply refine_stuck. discriminate.
    - right. right. split; [intros E; lra|]. cbn [fmul flt]. destruct (Rltb_spec ((i - idc v) / (p - idc v) * amax) 0) as [U | U]; apply FIN; lra. }
  destruct P as [(S1 & I1 & X) | [(S1 & I1 & X) | (S1 & a & A0 & X)]]; rewrite X.
  - repeat split; try tauto; try discriminate. intros [_ L]. lra.
  - repeat split; try tauto; try discriminate. intros [_ L]. lra.
  - repeat split; try discriminate; [intros [Q L]; specialize (S1 Q); lra|intros [Q L]; specialize (S1 Q); lra|]. intros b E. inversion E. now subst b.
Qed.

Lemma level_unfit vph amax nb V I : J 0%nat 0 = 1 -> (forall n, (0 < n)%nat -> J n 0 = 0) -> 0 < amax ->
  let p := pumped_iv J idc vph amax nb V in p = idc V \/ (I <= idc V /\ idc V < p) -> ac_impedance J idc ikk vph nb (level_at vph amax nb (V, I)) V = None.
Proof.
  intros J0 JN A p U.
  assert (Z : fst (Nat.iter 15 (refine_level (fun a => pumped_iv J idc vph a nb V) I) (FV 0, amax / 4)) = FV 0 \/ idc V < I).
  { destruct (Rlt_le_dec (idc V) I) as [G | G]; [now right|left]. rewrite refine_levels. cbn [fst]. f_equal. apply iter_zero; [lra|]. now rewrite pumped_undriven. }
  assert (N : ac_impedance J idc ikk vph nb (FV 0) V = None) by (unfold ac_impedance; rewrite ac_undriven by assumption; apply cdiv_none).
  unfold level_at, first_level. cbn [fst snd]. fold p. cbn [fdiv]. destruct (Reqb_spec (p - idc V) 0) as [E | E].
  - destruct (Reqb_spec (I - idc V) 0) as [W | W].
    + cbn [fmul flt]. rewrite refine_stuck by discriminate. reflexivity.
    + unfold finf. destruct (Rltb_spec (I - idc V) 0) as [W' | W']; cbn [fmul]; (destruct (Reqb_spec amax 0); [lra|]); unfold finf.
      * destruct (Rltb_spec (- amax) 0); [|lra]. cbn [flt]. destruct Z as [-> | Z]; [exact N|lra].
      * destruct (Rltb_spec amax 0); [lra|]. cbn [flt]. rewrite refine_stuck by discriminate. reflexivity.
  - destruct U as [U | [U1 U2]]; [lra|]. destruct Z as [Z | Z]; [|lra]. cbn [fmul flt].
    set (g := (I - idc V) / (p - idc V) * amax). assert (G : g <= 0).
    { unfold g, Rdiv. assert (0 < / (p - idc V)) by (apply Rinv_0_lt_compat; lra). assert (0 <= (idc V - I) * / (p - idc V) * amax) by (apply Rmult_le_pos; [apply Rmult_le_pos|]; lra). lra. }
    destruct (Rltb_spec g 0) as [G' | G']; [now rewrite Z|]. replace g with 0 by lra. now rewrite Z.
Qed.
Local Opaque level_at.

(** ** The recovery *)
Definition lift (r : recovered) : recovered_all :=
  {| all_zt := rec_zt r; all_vt := rec_vt r; all_fit := rec_fit r; all_zw := rec_zw r; all_alpha := FV (rec_alpha r); all_err := rec_err r |}.
Definition any_sample (vph : R) (nb : nat) (p : (R * R) * fl) : C * option C := (ac_voltage vph (snd p), ac_impedance J idc ikk vph nb (snd p) (fst (fst p))).
Definition used_samples (vph amax : R) (nb : nat) (B : list (R * R)) : list (C * option C) := map (fun p => any_sample vph nb (p, level_at vph amax nb p)) B.
Lemma used_fst vph amax nb B : map (ac_voltage vph) (map (level_at vph amax nb) B) = map fst (used_samples vph amax nb B).
Proof. unfold used_samples. now rewrite !map_map. Qed.
Lemma used_snd vph amax nb B : zipwith (ac_impedance J idc ikk vph nb) (map (level_at vph amax nb) B) (map fst B) = map snd (used_samples vph amax nb B).
Proof. unfold used_samples. rewrite map_map. induction B as [|p B IH]; [reflexivity|]. cbn [map zipwith]. now rewrite IH. Qed.
Lemma recover_all_eq voltage current vph q lo hi : length voltage = length current -> range_used q lo hi -> let B := step_samples vph lo hi voltage current in let O := used_samples vph (r_alpha_max q) (r_num_b q) B in
  B <> [] -> exists m s zt vt fit, smallest (map (fun p => Rabs (fst p - (1 - vph / 2))) B) m /\ grid_search (map fst O) (map snd O) q = Ok (s, zt, vt, fit) /\
    recover_all J idc ikk voltage current vph q = Ok {| all_zt := zt; all_vt := vt; all_fit := fit; all_zw := nth m (map snd O) None; all_alpha := nth m (map (level_at vph (r_alpha_max q) (r_num_b q)) B) FNaN; all_err := s |}.
Proof.
  intros L RU B O NE. unfold recover_all. rewrite (range_limits _ _ _ RU). cbn [bind]. rewrite step_eq by assumption. fold B. cbn [bind].
  assert (NE' : map (fun p : R * R => Rabs (fst p - (1 - vph / 2))) B <> []) by (intros E; apply map_eq_nil in E; contradiction).
  destruct (argmin_reals _ NE') as [m [EM SM]]. rewrite map_map in EM. rewrite map_map, EM. cbn [bind]. assert (Hm := proj1 SM). rewrite map_length in Hm.
  rewrite find_levels_eq. cbn [bind]. rewrite bcast_eq by now rewrite !map_length. cbn [bind]. rewrite used_snd, used_fst. fold O.
  assert (LO : length (map snd O) = length B) by (unfold O, used_samples; now rewrite !map_length).
  rewrite (pyget_nth (map snd O) (Z.of_nat m) None) by lia. destruct (Z.ltb_spec (Z.of_nat m) 0); [lia|]. rewrite Nat2Z.id. cbn [bind].
  destruct (grid_total (map fst O) (map snd O) q) as [[[[s zt] vt] fit] EG]; [now rewrite !map_length|]. rewrite EG. cbn [bind].
  rewrite (pyget_nth (map (level_at vph (r_alpha_max q) (r_num_b q)) B) (Z.of_nat m) FNaN) by (rewrite map_length; lia). destruct (Z.ltb_spec (Z.of_nat m) 0); [lia|]. rewrite Nat2Z.id. cbn [bind].
  exists m, s, zt, vt, fit. split; [exact SM|]. split; [try exact EG; reflexivity|reflexivity].
Qed.
Theorem all_runs voltage current vph q lo hi : length voltage = length current -> range_used q lo hi -> step_samples vph lo hi voltage current <> [] -> exists r, recover_all J idc ikk voltage current vph q = Ok r.
Proof. intros L RU NE. destruct (recover_all_eq voltage current vph q lo hi L RU NE) as (m & s & zt & vt & fit & _ & _ & E). eauto. Qed.
Theorem all_agrees voltage current vph q r : length voltage = length current -> recover_zemb J idc ikk voltage current vph q = Ok r -> recover_all J idc ikk voltage current vph q = Ok (lift r).
Proof.
  intros L H. unfold recover_zemb, recover_all, ac_side in *. destruct (fit_limits q) as [[lo h]|e]; [|discriminate]. cbn [bind] in *. replace h with (1 - (1 - h)) in * by ring. set (hi := 1 - h) in *. rewrite step_eq in * by assumption. set (B := step_samples vph lo hi voltage current) in *. cbn [bind] in *.
  apply bind_ok in H as (m & E3 & H). rewrite E3. cbn [bind]. apply bind_ok in H as ([[al av] ai] & E4 & H).
  apply bind_ok in E4 as (al' & E5 & E4). apply bind_ok in E4 as (ac & E6 & E4). apply bind_ok in E4 as (ai' & E7 & E4). apply ok_inj in E4. assert (K : al' = al /\ map (fun a => RtoC (a * vph)) al' = av /\ ai' = ai) by (split; [|split]; congruence). destruct K as (-> & EV & ->). clear E4.
  pose proof (levels_agree vph (r_alpha_max q) (r_num_b q) B al E5) as LV.
  rewrite find_levels_eq. cbn [bind]. rewrite LV.
  assert (LA : length al = length B) by (rewrite <- (map_length FV al), <- LV; apply map_length).
  rewrite bcast_eq in E6 by now rewrite map_length. apply ok_inj in E6. subst ac.
  rewrite bcast_eq in E7 by (rewrite map_length, zipwith_length; [reflexivity|now rewrite map_length]). apply ok_inj in E7.
  rewrite bcast_eq by now rewrite !map_length. cbn [bind].
  assert (EI : zipwith (ac_impedance J idc ikk vph (r_num_b q)) (map FV al) (map fst B) = ai).
  { rewrite <- E7. clear. generalize (map fst B) as l. induction al as [|a al IH]; intros [|v l]; try reflexivity. cbn [map zipwith]. now rewrite IH. }
  assert (EV' : map (ac_voltage vph) (map FV al) = av) by (rewrite map_map; exact EV).
  rewrite EI, EV'. apply bind_ok in H as (zw & EZ & H). rewrite EZ. cbn [bind]. apply bind_ok in H as ([[[s zt] vt] fit] & EG & H). rewrite EG. cbn [bind].
  apply bind_ok in H as (a & EA & H). apply ok_inj in H. subst r.
  assert (EA' : pyget (map FV al) (Z.of_nat m) = Ok (FV a)).
  { unfold pyget in EA |- *. rewrite map_length. destruct (pyidx (length al) (Z.of_nat m)) as [k|]; [|discriminate]. rewrite nth_error_map. destruct (nth_error al k); [|discriminate]. apply ok_inj in EA. now subst. }
  rewrite EA'. cbn [bind]. reflexivity.
Qed.

(** ** Samples that spoil the result *)
Theorem all_spoiled voltage current vph q lo hi V I : J 0%nat 0 = 1 -> (forall n, (0 < n)%nat -> J n 0 = 0) -> length voltage = length current -> range_used q lo hi -> 0 < r_alpha_max q ->
  In (V, I) (step_samples vph lo hi voltage current) ->
  (let p := pumped_iv J idc vph (r_alpha_max q) (r_num_b q) V in p = idc V \/ (I <= idc V /\ idc V < p)) ->
  exists r, recover_all J idc ikk voltage current vph q = Ok r /\
    all_zt r = match r_zemb q with None => (fst (r_remb q), fst (r_xemb q)) | Some z => z end /\ all_vt r = FNaN /\ all_fit r = false /\
    all_err r = repeat (repeat FNaN 201) 101.
Proof.
  intros J0 JN L RU A HV U. set (B := step_samples vph lo hi voltage current) in *.
  destruct (recover_all_eq voltage current vph q lo hi L RU) as (m & s & zt & vt & fit & _ & EG & ->). { fold B. intros E. rewrite E in HV. destruct HV. }
  cbv zeta in EG. fold B in EG. set (O := used_samples vph (r_alpha_max q) (r_num_b q) B) in *. eexists. split; [reflexivity|]. cbn [all_zt all_vt all_fit all_err].
  assert (IN : exists c, In (c, None) O).
  { exists (ac_voltage vph (level_at vph (r_alpha_max q) (r_num_b q) (V, I))). unfold O, used_samples. apply in_map_iff. exists (V, I). split; [|assumption]. unfold any_sample. cbn [fst snd]. now rewrite level_unfit. }
  destruct IN as [c IN].
  assert (UN : forall zs, error_function (map fst O) (map snd O) zs = Ok FNaN /\ find_source_voltage (map fst O) (map snd O) zs = Ok FNaN) by (intros zs; now apply (error_undefined O zs (c, None))).
  assert (LL : length (map fst O) = length (map snd O)) by now rewrite !map_length.
  apply grid_inv in EG; [|assumption]. destruct EG as [i [EI [Q1 [EZ [ES EF]]]]].
  assert (TE : forall zs, the_error (map fst O) (map snd O) zs = FNaN) by (intros zs; unfold the_error; now rewrite (proj1 (UN zs))).
  assert (I0 : i = 0%nat).
  { pose proof (surf_flat (map fst O) (map snd O) q LL 0) as S0. change (0 mod 201)%nat with 0%nat in S0. change (0 / 201)%nat with 0%nat in S0. rewrite surf_nth in S0 by lia. rewrite TE in S0.
    destruct (List.concat _) as [|a l] eqn:EC in S0, EI; [discriminate|]. cbn [nth] in S0. subst a. rewrite argmin_nan in EI. apply ok_inj in EI. now symmetry. }
  subst i. change (0 mod 201)%nat with 0%nat in *. change (0 / 201)%nat with 0%nat in *. rewrite surf_nth, TE in EF by lia. split; [|split; [|split]].
  - rewrite EZ. destruct (r_zemb q); [reflexivity|]. rewrite grid_nth by lia. unfold grid_point. cbn [INR]. f_equal; ring.
  - rewrite (proj2 (UN zt)) in ES. apply ok_inj in ES. now symmetry.
  - exact EF.
  - rewrite Q1. assert (K : forall (A B : Type) (c : B) (l : list A) n, length l = n -> map (fun _ => c) l = repeat c n) by (intros A' B' c' l n <-; induction l as [|a l IH]; cbn [map length repeat]; [reflexivity|now rewrite IH]).
    rewrite (map_ext _ (fun _ => repeat FNaN 201)); [apply K; apply linspace_length|]. intros a. rewrite (map_ext _ (fun _ => FNaN)); [apply K; apply linspace_length|]. intros b. apply TE.
Qed.
Theorem all_levels vph amax nb B : 0 < amax -> exists l, find_levels J idc (map fst B) (map snd B) vph amax nb = Ok l /\ length l = length B /\
  forall k v i, nth_error B k = Some (v, i) -> exists x, nth_error l k = Some x /\
    let same := pumped_iv J idc vph amax nb v = idc v in
    (x = FNaN <-> same /\ i = idc v) /\ (x = FPInf <-> same /\ idc v < i) /\ x <> FNInf /\ (forall a, x = FV a -> 0 <= a).
Proof.
  intros A. exists (map (level_at vph amax nb) B). split; [apply find_levels_eq|]. split; [apply map_length|]. intros k v i E. exists (level_at vph amax nb (v, i)). split; [now rewrite nth_error_map, E|]. now apply level_cases.
Qed.
End All.

Lemma all_case : let idc := fun v : R => if Rle_dec v (3 / 2) then 0 else 1 in
  let q := {| r_fit_range := None; r_cut_low := None; r_cut_high := None; r_remb := (1, 2); r_xemb := (-1, 1); r_zemb := None; r_alpha_max := 3 / 2; r_num_b := 1 |} in
  let v := [4 / 10; 6 / 10] in let i := [1 / 10; 2 / 10] in
  besselJ 0 0 = 1 /\ (forall n, (0 < n)%nat -> besselJ n 0 = 0) /\ range_used q (1 / 4) (8 / 10) /\ step_samples 1 (1 / 4) (8 / 10) v i = [(4 / 10, 1 / 10); (6 / 10, 2 / 10)] /\
  pumped_iv besselJ idc 1 (3 / 2) 1 (4 / 10) = idc (4 / 10) /\ idc (6 / 10) < pumped_iv besselJ idc 1 (3 / 2) 1 (6 / 10) /\
  exists x a, find_levels besselJ idc v i 1 (3 / 2) 1 = Ok [x; FV a] /\ x = FPInf.
Proof.
  intros idc q v i.
  assert (P : forall u, pumped_iv besselJ idc 1 (3 / 2) 1 u = (besselJ 1 (3 / 2)) ^ 2 * idc (u - 1) + (besselJ 0 (3 / 2)) ^ 2 * idc u + (besselJ 1 (3 / 2)) ^ 2 * idc (u + 1)).
  { intros u. unfold pumped_iv. change (zrange (- Z.of_nat 1) (Z.of_nat 1 + 1)) with [(-1)%Z; 0%Z; 1%Z]. cbn [fold_left].
    assert (B1 : besselZ besselJ (-1) (3 / 2) = - besselJ 1 (3 / 2)) by (unfold besselZ; change (-1 <? 0)%Z with true; change (Z.to_nat (- -1)) with 1%nat; cbn [pow]; ring). assert (B2 : besselZ besselJ 1 (3 / 2) = besselJ 1 (3 / 2)) by reflexivity. assert (B3 : besselZ besselJ 0 (3 / 2) = besselJ 0 (3 / 2)) by reflexivity. rewrite B1, B2, B3.
    replace (u + -1 * 1) with (u - 1) by ring. replace (u + 0 * 1) with u by ring. replace (u + 1 * 1) with (u + 1) by ring. cbn [pow]. ring. }
  assert (I0 : forall u, u <= 3 / 2 -> idc u = 0) by (intros u U; unfold idc; destruct (Rle_dec u (3 / 2)); [reflexivity|lra]).
  assert (I1 : forall u, 3 / 2 < u -> idc u = 1) by (intros u U; unfold idc; destruct (Rle_dec u (3 / 2)); [lra|reflexivity]).
  assert (P4 : pumped_iv besselJ idc 1 (3 / 2) 1 (4 / 10) = idc (4 / 10)) by (rewrite P, !I0 by lra; ring).
  assert (JP : 0 < besselJ 1 (3 / 2)) by (apply J_pos; lra).
  assert (P6 : idc (6 / 10) < pumped_iv besselJ idc 1 (3 / 2) 1 (6 / 10)).
  { rewrite P. rewrite (I0 (6 / 10)), (I0 (6 / 10 - 1)), (I1 (6 / 10 + 1)) by lra. assert (0 < besselJ 1 (3 / 2) ^ 2) by (apply pow_lt; assumption). lra. }
  split; [apply besselJ_0_0|]. split; [intros [|k] K0; [lia|apply besselJ_S_0]|]. split; [right; repeat split|].
  split; [unfold step_samples, v, i; cbn [List.combine filter fst]; repeat (match goal with |- context [Rle_dec ?a ?b] => destruct (Rle_dec a b); [|lra] end); reflexivity|].
  split; [exact P4|]. split; [exact P6|].
  destruct (all_levels besselJ idc idc 1 (3 / 2) 1 (List.combine v i)) as (l & E & LL & N); [lra|]. unfold v, i in *. cbn [List.combine map fst snd] in E. rewrite E. cbn [List.combine length] in *.
  destruct l as [|x [|y [|z l]]]; try discriminate.
  destruct (N 0%nat (4 / 10) (1 / 10) eq_refl) as (x' & X & _ & XP & _). cbn [nth_error] in X. assert (x' = x) as -> by congruence.
  destruct (N 1%nat (6 / 10) (2 / 10) eq_refl) as (y' & Y & YN & YP & YM & _). cbn [nth_error] in Y. assert (y' = y) as -> by congruence.
  destruct y as [a| | |].
  - exists x, a. split; [reflexivity|]. apply XP. split; [exact P4|]. rewrite I0 by lra. lra.
  - destruct (proj1 YP eq_refl) as [Q _]. lra.
  - now destruct YM.
  - destruct (proj1 YN eq_refl) as [Q _]. lra.
Qed.
