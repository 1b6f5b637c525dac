(** Proofs about impedance recovery as a whole. *)
From Coq Require Import List ZArith Reals Lra Lia Bool Arith Classical_Prop.
From Coquelicot Require Import Coquelicot.
From Verif Require Import Base Float NumPy Model_QtCurrent Model_CleanData Model_RespFn Model_Tucker Model_IVData Model_ExpData Spec_QtCurrent Spec_CleanData Spec_IVData Spec_IFData Spec_ExpData Proof_NumPy Proof_Circuit Proof_HB Proof_HB2 Proof_RespFn2 Proof_CleanData Proof_IVModels Proof_IVLoad Proof_IVData Proof_IVCurve Proof_IFNoise Proof_Recover Proof_Recover2.
Import ListNotations.
Open Scope R_scope.
Local Notation length := List.length.
Local Notation Forall := List.Forall.

Lemma step_eq voltage current vph lo hi : length voltage = length current ->
  on_step voltage current vph lo (1 - hi) = Ok (map fst (step_samples vph lo hi voltage current), map snd (step_samples vph lo hi voltage current)).
Proof.
  intros L. unfold on_step. destruct (combine_unzip voltage current L) as [E1 E2]. set (a := 1 - vph + vph * lo). replace (1 - vph * (1 - hi)) with (1 - vph + vph * hi) by ring. set (b := 1 - vph + vph * hi).
  set (P := List.combine voltage current) in *.
  assert (EM : map (fun v => Rleb a v && Rleb v b)%bool voltage = map (fun p => Rleb a (fst p) && Rleb (fst p) b)%bool P) by (rewrite <- E1 at 1; now rewrite map_map).
  rewrite EM. clear EM. assert (SV : forall g, select (map g P) voltage = Ok (map fst (filter g P))) by (intros g; rewrite <- E1 at 1; apply select_map).
  assert (SI : forall g, select (map g P) current = Ok (map snd (filter g P))) by (intros g; rewrite <- E2 at 1; apply select_map). rewrite SV, SI. cbn [bind]. unfold step_samples. fold P. fold a b.
  rewrite (filter_ext (fun p => Rleb a (fst p) && Rleb (fst p) b)%bool (fun p => if Rle_dec a (fst p) then if Rle_dec (fst p) b then true else false else false)); [reflexivity|].
  intros p. destruct (Rleb_spec a (fst p)), (Rle_dec a (fst p)), (Rleb_spec (fst p) b), (Rle_dec (fst p) b); try reflexivity; contradiction.
Qed.

Lemma mapM_fun_in {A B} (f : A -> res B) g l : (forall x, In x l -> f x = Ok (g x)) -> mapM f l = Ok (map g l).
Proof. intros H. induction l as [|x l IH]; [reflexivity|]. cbn [mapM]. rewrite (H x (or_introl eq_refl)), IH; [reflexivity|]. intros; apply H; now right. Qed.

Section Recover.
Variable J : nat -> R -> R.
Variables idc ikk : R -> R.

Definition raw_sample (vph : R) (nb : nat) (p : (R * R) * R) : C * option C :=
  (RtoC (snd p * vph), cdiv (RtoC (snd p * vph)) (ac_current J idc ikk vph (snd p) nb (fst (fst p)))).
Lemma ac_side_inv (B : list (R * R)) vph q al av ai : ac_side J idc ikk (map fst B) (map snd B) vph q = Ok (al, av, ai) ->
  find_alpha J idc (map fst B) (map snd B) vph (r_alpha_max q) (r_num_b q) = Ok al /\ length al = length B /\
  av = map fst (map (raw_sample vph (r_num_b q)) (List.combine B al)) /\ ai = map snd (map (raw_sample vph (r_num_b q)) (List.combine B al)).
Proof.
  unfold ac_side. intros H. apply bind_ok in H. destruct H as [al' [E H]].
  destruct (alpha_nonneg J idc (map fst B) (map snd B) vph (r_alpha_max q) (r_num_b q) al') as [LA _]; [now rewrite !map_length|assumption|]. rewrite map_length in LA.
  rewrite (bcast_eq _ al' (map fst B)) in H by now rewrite map_length. cbn [bind] in H. rewrite bcast_eq in H by (rewrite zipwith_length, map_length; [reflexivity|now rewrite map_length]). cbn [bind] in H.
  apply ok_inj in H. assert (K : al' = al /\ map (fun a => RtoC (a * vph)) al' = av /\ zipwith cdiv (map (fun a => RtoC (a * vph)) al') (zipwith (fun a v => ac_current J idc ikk vph a (r_num_b q) v) al' (map fst B)) = ai) by (revert H; clear; intros H; injection H; auto).
  destruct K as [-> [<- <-]]. split; [assumption|]. split; [assumption|]. rewrite !map_map. unfold raw_sample. cbn [fst snd].
  assert (LB : length B = length al) by now symmetry. clear - LB. revert al LB. induction B as [|b B IH]; intros [|a al] L; cbn [List.length] in L; try discriminate; [split; reflexivity|].
  cbn [List.combine map zipwith fst snd]. destruct (IH al) as [I1 I2]; [lia|]. split; [now rewrite I1|now rewrite I2].
Qed.

Lemma recover_inv voltage current vph q r lo hi : length voltage = length current -> fit_limits q = Ok (lo, 1 - hi) -> recover_zemb J idc ikk voltage current vph q = Ok r ->
  let B := step_samples vph lo hi voltage current in
  exists al m, find_alpha J idc (map fst B) (map snd B) vph (r_alpha_max q) (r_num_b q) = Ok al /\ length al = length B /\
  let O := map (raw_sample vph (r_num_b q)) (List.combine B al) in
  grid_search (map fst O) (map snd O) q = Ok (rec_err r, rec_zt r, rec_vt r, rec_fit r) /\
  smallest (map (fun p => Rabs (fst p - (1 - vph / 2))) B) m /\ rec_alpha r = nth m al 0 /\ rec_zw r = snd (raw_sample vph (r_num_b q) (nth m B (0, 0), nth m al 0)).
Proof.
  intros L F H. unfold recover_zemb in H. rewrite F in H. cbn [bind] in H. rewrite step_eq in H by assumption. cbn [bind] in H. cbv zeta. set (B := step_samples vph lo hi voltage current) in *.
  apply bind_ok in H. destruct H as [m [EM H]]. apply bind_ok in H. destruct H as [[[al av] ai] [EA H]]. apply ac_side_inv in EA. destruct EA as [EA [LA [EV EI]]]. apply bind_ok in H. destruct H as [zw [EZ H]].
  apply bind_ok in H. destruct H as [[[[s zt] vt] fit] [EG H]]. apply bind_ok in H. destruct H as [a [Ea H]]. apply ok_inj in H. subst r. cbn [rec_err rec_zt rec_vt rec_fit rec_alpha rec_zw].
  exists al, m. split; [assumption|]. split; [assumption|]. rewrite EV, EI in EG. split; [assumption|].
  assert (SM : smallest (map (fun p => Rabs (fst p - (1 - vph / 2))) B) m).
  { rewrite map_map in EM. assert (NE : map (fun p : R * R => Rabs (fst p - (1 - vph / 2))) B <> []) by (intros E; apply map_eq_nil in E; rewrite E in EM; discriminate).
    destruct (argmin_reals _ NE) as [k [E S]]. rewrite map_map in E. rewrite E in EM. apply ok_inj in EM. now subst k. }
  split; [assumption|]. destruct SM as [K _]. rewrite map_length in K. split.
  - rewrite (pyget_nth al (Z.of_nat m) 0) in Ea by lia. destruct (Z.ltb_spec (Z.of_nat m) 0); [lia|]. rewrite Nat2Z.id in Ea. apply ok_inj in Ea. now symmetry.
  - rewrite (pyget_nth ai (Z.of_nat m) None) in EZ by (rewrite EI, !map_length, combine_length; lia). destruct (Z.ltb_spec (Z.of_nat m) 0); [lia|]. rewrite Nat2Z.id in EZ. apply ok_inj in EZ. rewrite <- EZ, EI.
    rewrite map_map. rewrite (nth_map_in _ _ m None ((0, 0), 0)) by (rewrite combine_length; lia). now rewrite combine_nth by (symmetry; assumption).
Qed.

Definition sample_of (vph : R) (nb : nat) (p : (R * R) * R) : C * C := junction_sample J idc ikk vph nb (fst (fst p)) (snd p).
Lemma raw_finite vph nb Q : (forall p, In p Q -> ac_current J idc ikk vph (snd p) nb (fst (fst p)) <> RtoC 0) ->
  map fst (map (raw_sample vph nb) Q) = map fst (map (sample_of vph nb) Q) /\ map snd (map (raw_sample vph nb) Q) = map (fun p => Some (snd p)) (map (sample_of vph nb) Q).
Proof.
  intros H. rewrite !map_map. split; [reflexivity|]. apply map_ext_in. intros p Hp. unfold raw_sample. cbn [snd]. rewrite cdiv_some by now apply H. reflexivity.
Qed.
Lemma range_limits q lo hi : range_used q lo hi -> fit_limits q = Ok (lo, 1 - hi).
Proof. unfold fit_limits. intros [->|[-> [-> ->]]]; reflexivity. Qed.

Definition samples (vph : R) (nb : nat) (B : list (R * R)) (al : list R) : list (C * C) :=
  map (fun p => junction_sample J idc ikk vph nb (fst (fst p)) (snd p)) (List.combine B al).
Lemma recover_grid voltage current vph q r lo hi : length voltage = length current -> range_used q lo hi -> recover_zemb J idc ikk voltage current vph q = Ok r ->
  let B := step_samples vph lo hi voltage current in
  exists al, find_alpha J idc (map fst B) (map snd B) vph (r_alpha_max q) (r_num_b q) = Ok al /\
  let pts := samples vph (r_num_b q) B al in
  ((forall p, In p (List.combine B al) -> ac_current J idc ikk vph (snd p) (r_num_b q) (fst (fst p)) <> RtoC 0) ->
   (forall i j, (i <= 100)%nat -> (j <= 200)%nat -> connectable pts (grid_point (r_remb q) (r_xemb q) i j)) ->
   exists i j V, (i <= 100)%nat /\ (j <= 200)%nat /\
     rec_zt r = match r_zemb q with None => grid_point (r_remb q) (r_xemb q) i j | Some z => z end /\
     find_source_voltage (map fst pts) (map (fun p => Some (snd p)) pts) (rec_zt r) = Ok (rec_vt r) /\
     find_source_voltage (map fst pts) (map (fun p => Some (snd p)) pts) (grid_point (r_remb q) (r_xemb q) i j) = Ok (FV V) /\
     (forall i' j' V', (i' <= 100)%nat -> (j' <= 200)%nat -> mismatch pts (grid_point (r_remb q) (r_xemb q) i j) V <= mismatch pts (grid_point (r_remb q) (r_xemb q) i' j') V') /\
     (rec_fit r = true <-> mismatch pts (grid_point (r_remb q) (r_xemb q) i j) V <= 7 / 10 ^ 7)).
Proof.
  intros L RU H. cbv zeta. destruct (recover_inv _ _ _ _ _ lo hi L (range_limits _ _ _ RU) H) as [al [m [EA [LA [EG _]]]]]. cbv zeta in EG. set (B := step_samples vph lo hi voltage current) in *.
  exists al. split; [assumption|]. intros NZ CN. change (samples vph (r_num_b q) B al) with (map (sample_of vph (r_num_b q)) (List.combine B al)) in *.
  destruct (raw_finite vph (r_num_b q) _ NZ) as [E1 E2]. rewrite E1, E2 in EG. set (pts := map (sample_of vph (r_num_b q)) (List.combine B al)) in *.
  assert (LL : length (map fst pts) = length (map (fun p : C * C => Some (snd p)) pts)) by now rewrite !map_length.
  assert (TE : forall i j, (i <= 100)%nat -> (j <= 200)%nat -> exists e V, the_error (map fst pts) (map (fun p => Some (snd p)) pts) (grid_point (r_remb q) (r_xemb q) i j) = FV e /\
     find_source_voltage (map fst pts) (map (fun p => Some (snd p)) pts) (grid_point (r_remb q) (r_xemb q) i j) = Ok (FV V) /\ e = mismatch pts (grid_point (r_remb q) (r_xemb q) i j) V /\ forall V', e <= mismatch pts (grid_point (r_remb q) (r_xemb q) i j) V').
  { intros i j I K. destruct (error_minimum pts _ (CN i j I K)) as [e [V [E [EV [_ [EM [M _]]]]]]]. exists e, V. unfold the_error. rewrite E. auto. }
  apply grid_inv in EG; [|assumption]. destruct EG as [k [EK [_ [EZ [ES EF]]]]].
  destruct (grid_number (map fst pts) (map (fun p => Some (snd p)) pts) q LL) as [i [j [I [K [EK' M]]]]].
  { intros i j I K. destruct (TE i j I K) as [e [V [-> _]]]. reflexivity. }
  rewrite EK in EK'. apply ok_inj in EK'. subst k.
  assert (D1 : ((i * 201 + j) / 201 = i)%nat) by (symmetry; apply (Nat.div_unique _ _ _ j); lia). assert (D2 : ((i * 201 + j) mod 201 = j)%nat) by (symmetry; apply (Nat.mod_unique _ _ i); lia).
  rewrite D1, D2 in EZ, EF. rewrite grid_nth in EZ by assumption. rewrite surf_nth in EF by assumption.
  destruct (TE i j I K) as [e [V [TE1 [TE2 [TE3 TE4]]]]]. exists i, j, V. split; [assumption|]. split; [assumption|]. split; [assumption|]. split; [assumption|]. split; [assumption|]. split.
  - intros i' j' V' I' K'. rewrite <- TE3. specialize (M i' j' I' K'). destruct (TE i' j' I' K') as [e' [V'' [T1 [_ [_ T4]]]]]. rewrite TE1, T1 in M. specialize (T4 V'). unfold fle in M. cbn [flt feq] in M.
    destruct (Rltb_spec e e'), (Reqb_spec e e'); cbn [orb] in M; try discriminate; lra.
  - rewrite EF, TE1, <- TE3. unfold fle. cbn [flt feq]. unfold good_error. destruct (Rltb_spec e (7 / 10 ^ 7)), (Reqb_spec e (7 / 10 ^ 7)); cbn [orb]; split; intros; try reflexivity; try discriminate; lra.
Qed.
Theorem recover_best voltage current vph q r lo hi : length voltage = length current -> range_used q lo hi -> r_zemb q = None -> recover_zemb J idc ikk voltage current vph q = Ok r ->
  let B := step_samples vph lo hi voltage current in
  exists al, find_alpha J idc (map fst B) (map snd B) vph (r_alpha_max q) (r_num_b q) = Ok al /\
  let pts := map (fun p => junction_sample J idc ikk vph (r_num_b q) (fst (fst p)) (snd p)) (List.combine B al) in
  ((forall p, In p (List.combine B al) -> ac_current J idc ikk vph (snd p) (r_num_b q) (fst (fst p)) <> RtoC 0) ->
   (forall i j, (i <= 100)%nat -> (j <= 200)%nat -> connectable pts (grid_point (r_remb q) (r_xemb q) i j)) ->
   exists i j V, (i <= 100)%nat /\ (j <= 200)%nat /\ rec_zt r = grid_point (r_remb q) (r_xemb q) i j /\ rec_vt r = FV V /\
     (forall i' j' V', (i' <= 100)%nat -> (j' <= 200)%nat -> mismatch pts (rec_zt r) V <= mismatch pts (grid_point (r_remb q) (r_xemb q) i' j') V') /\
     (rec_fit r = true <-> mismatch pts (rec_zt r) V <= 7 / 10 ^ 7)).
Proof.
  intros L RU ZN H. cbv zeta. destruct (recover_grid _ _ _ _ _ lo hi L RU H) as [al [EA G]]. cbv zeta in G. exists al. split; [assumption|]. intros NZ CN. destruct (G NZ CN) as [i [j [V [I [K [EZ [ES [EV [M F]]]]]]]]].
  rewrite ZN in EZ. exists i, j, V. split; [assumption|]. split; [assumption|]. split; [assumption|]. rewrite EZ in ES. rewrite EV in ES. apply ok_inj in ES. split; [now symmetry|]. rewrite EZ. split; assumption.
Qed.
Theorem recover_forced voltage current vph q r lo hi z : length voltage = length current -> range_used q lo hi -> r_zemb q = Some z -> recover_zemb J idc ikk voltage current vph q = Ok r ->
  let B := step_samples vph lo hi voltage current in
  exists al, find_alpha J idc (map fst B) (map snd B) vph (r_alpha_max q) (r_num_b q) = Ok al /\
  let pts := map (fun p => junction_sample J idc ikk vph (r_num_b q) (fst (fst p)) (snd p)) (List.combine B al) in
  ((forall p, In p (List.combine B al) -> ac_current J idc ikk vph (snd p) (r_num_b q) (fst (fst p)) <> RtoC 0) ->
   (forall i j, (i <= 100)%nat -> (j <= 200)%nat -> connectable pts (grid_point (r_remb q) (r_xemb q) i j)) -> connectable pts z ->
   rec_zt r = z /\ (exists V, rec_vt r = FV V /\ forall V', mismatch pts z V <= mismatch pts z V') /\
     (rec_fit r = true <-> exists i j V, (i <= 100)%nat /\ (j <= 200)%nat /\ mismatch pts (grid_point (r_remb q) (r_xemb q) i j) V <= 7 / 10 ^ 7)).
Proof.
  intros L RU ZN H. cbv zeta. destruct (recover_grid _ _ _ _ _ lo hi L RU H) as [al [EA G]]. cbv zeta in G. exists al. split; [assumption|]. intros NZ CN CZ. destruct (G NZ CN) as [i [j [V [I [K [EZ [ES [EV [M F]]]]]]]]].
  rewrite ZN in EZ. split; [assumption|]. split.
  - rewrite EZ in ES. destruct (error_minimum _ z CZ) as [e [V' [_ [EV' [_ [EM [MM _]]]]]]]. exists V'. split.
    + unfold samples in ES. rewrite EV' in ES. apply ok_inj in ES. now symmetry.
    + intros V''. rewrite <- EM. apply MM.
  - rewrite F. split; [intros; now exists i, j, V|]. intros [i' [j' [V' [I' [K' H']]]]]. eapply Rle_trans; [apply (M i' j' V'); assumption|assumption].
Qed.

(** The junction values are those of the sample nearest to the middle of the step. *)
Theorem recover_middle voltage current vph q r lo hi : length voltage = length current -> range_used q lo hi -> recover_zemb J idc ikk voltage current vph q = Ok r ->
  let B := step_samples vph lo hi voltage current in
  exists al m, find_alpha J idc (map fst B) (map snd B) vph (r_alpha_max q) (r_num_b q) = Ok al /\ (m < length B)%nat /\
  (forall k, (k < length B)%nat -> Rabs (fst (nth m B (0, 0)) - (1 - vph / 2)) <= Rabs (fst (nth k B (0, 0)) - (1 - vph / 2))) /\
  rec_alpha r = nth m al 0 /\
  (ac_current J idc ikk vph (nth m al 0) (r_num_b q) (fst (nth m B (0, 0))) <> RtoC 0 -> rec_zw r = Some (snd (junction_sample J idc ikk vph (r_num_b q) (fst (nth m B (0, 0))) (nth m al 0)))).
Proof.
  intros L RU H. cbv zeta. destruct (recover_inv _ _ _ _ _ lo hi L (range_limits _ _ _ RU) H) as [al [m [EA [LA [_ [[K S] [EAl EZ]]]]]]]. rewrite map_length in *. exists al, m. split; [assumption|]. split; [assumption|]. split.
  - intros k Hk. specialize (S k Hk). rewrite !(nth_map_in (fun p => Rabs (fst p - (1 - vph / 2))) _ _ 0 (0, 0)) in S by assumption. assumption.
  - split; [assumption|]. intros NZ. rewrite EZ. unfold raw_sample. cbn [fst snd]. now rewrite cdiv_some by assumption.
Qed.

(** ** Undriven samples *)
Lemma zrange_split lo m hi : (lo <= m <= hi)%Z -> zrange lo hi = zrange lo m ++ zrange m hi.
Proof.
  intros H. replace hi with (m + Z.of_nat (Z.to_nat (hi - m)))%Z by lia. generalize (Z.to_nat (hi - m)) as n. induction n as [|n IH].
  - rewrite Z.add_0_r, (zrange_nil m m) by lia. now rewrite app_nil_r.
  - replace (m + Z.of_nat (S n))%Z with (m + Z.of_nat n + 1)%Z by lia. rewrite !zrange_snoc by lia. now rewrite IH, app_assoc.
Qed.
Lemma ac_undriven vph nb v : (forall n, (0 < n)%nat -> J n 0 = 0) -> ac_current J idc ikk vph 0 nb v = RtoC 0.
Proof.
  intros HJ. unfold ac_current. assert (BZ : forall n, n <> 0%Z -> besselZ J n 0 = 0).
  { intros n Hn. unfold besselZ. destruct (Z.ltb_spec n 0); rewrite HJ by lia; [apply Rmult_0_r|reflexivity]. }
  assert (G : forall l a, fold_left (fun ac n => Cplus (Cplus ac (RtoC (besselZ J n 0 * (besselZ J (n - 1) 0 + besselZ J (n + 1) 0) * idc (v + IZR n * vph))))
       (Cmult (Cmult Ci (RtoC (besselZ J n 0 * (besselZ J (n - 1) 0 - besselZ J (n + 1) 0)))) (RtoC (ikk (v + IZR n * vph))))) l a = a).
  { induction l as [|n l IH]; intros a; [reflexivity|]. cbn [fold_left]. rewrite IH. destruct (Z.eq_dec n 0) as [->|N].
    - rewrite (BZ (0 - 1)%Z), (BZ (0 + 1)%Z) by lia. replace (besselZ J 0 0 * (0 + 0) * idc (v + IZR 0 * vph)) with 0 by ring. replace (besselZ J 0 0 * (0 - 0)) with 0 by ring. now rewrite Cmult_0_r, Cmult_0_l, !Cplus_0_r.
    - rewrite (BZ n N). replace (0 * (besselZ J (n - 1) 0 + besselZ J (n + 1) 0) * idc (v + IZR n * vph)) with 0 by ring. replace (0 * (besselZ J (n - 1) 0 - besselZ J (n + 1) 0)) with 0 by ring. now rewrite Cmult_0_r, Cmult_0_l, !Cplus_0_r. }
  apply G.
Qed.
Lemma pumped_undriven vph nb v : J 0%nat 0 = 1 -> (forall n, (0 < n)%nat -> J n 0 = 0) -> pumped_iv J idc vph 0 nb v = idc v.
Proof.
  intros J0 HJ. assert (BZ : forall n, n <> 0%Z -> besselZ J n 0 = 0).
  { intros n Hn. unfold besselZ. destruct (Z.ltb_spec n 0); rewrite HJ by lia; [apply Rmult_0_r|reflexivity]. }
  assert (B0 : besselZ J 0 0 = 1) by exact J0. unfold pumped_iv. set (f := fun dc n => dc + besselZ J n 0 ^ 2 * idc (v + IZR n * vph)).
  assert (G : forall l a, (forall n, In n l -> n <> 0%Z) -> fold_left f l a = a).
  { induction l as [|n l IH]; intros a H; [reflexivity|]. cbn [fold_left]. rewrite IH by (intros; apply H; now right). unfold f. rewrite BZ by (apply H; now left). ring. }
  assert (S : zrange (- Z.of_nat nb) (Z.of_nat nb + 1) = zrange (- Z.of_nat nb) 0 ++ 0%Z :: zrange 1 (Z.of_nat nb + 1)).
  { rewrite (zrange_split (- Z.of_nat nb) 0 (Z.of_nat nb + 1)) by lia. f_equal. rewrite zrange_cons by lia. reflexivity. }
  rewrite S, fold_left_app. cbn [fold_left]. rewrite G by (intros n Hn; apply in_zrange in Hn; lia). rewrite G by (intros n Hn; apply in_zrange in Hn; lia). unfold f. rewrite B0. replace (v + IZR 0 * vph) with v by (cbn; ring). ring.
Qed.

(** ** When the recovery runs *)
Lemma alpha_total vph amax nb B : (forall p, In p B -> pumped_iv J idc vph amax nb (fst p) <> idc (fst p)) ->
  exists al, find_alpha J idc (map fst B) (map snd B) vph amax nb = Ok al.
Proof.
  intros H. unfold find_alpha. rewrite bcast_eq by now rewrite !map_length. cbn [bind]. rewrite zip_map2, mapM_fun_in with (g := fun vi => fst (Nat.iter 15 (refine (fun a => pumped_iv J idc vph a nb (fst vi)) (snd vi)) (guess J idc vph amax nb (fst vi) (snd vi), amax / 4))); [eauto|].
  intros x Hx. apply in_map_iff in Hx. destruct Hx as [p [<- Hp]]. cbn [fst snd]. rewrite (proj2 (first_ok J idc vph amax nb (fst p) (snd p) _) (conj (H p Hp) eq_refl)). reflexivity.
Qed.
Lemma grid_total v z q : length v = length z -> exists g, grid_search v z q = Ok g.
Proof.
  intros L. unfold grid_search. rewrite surf_ok by assumption. cbn [bind]. destruct (argmin_first_any (List.concat (map (fun a => map (fun b => the_error v z (a, b)) (linspace (fst (r_xemb q)) (snd (r_xemb q)) 201)) (linspace (fst (r_remb q)) (snd (r_remb q)) 101)))) as [k ->].
  { rewrite surf_length. apply Nat.lt_0_succ. }
  cbn [bind]. unfold find_source_voltage. rewrite bcast_eq by assumption. cbn [bind]. eauto.
Qed.
Theorem recover_total voltage current vph q lo hi : length voltage = length current -> range_used q lo hi -> let B := step_samples vph lo hi voltage current in
  B <> [] -> (forall p, In p B -> pumped_iv J idc vph (r_alpha_max q) (r_num_b q) (fst p) <> idc (fst p)) -> exists r, recover_zemb J idc ikk voltage current vph q = Ok r.
Proof.
  intros L RU B NE H. unfold recover_zemb. rewrite (range_limits _ _ _ RU). cbn [bind]. rewrite step_eq by assumption. fold B. cbn [bind].
  assert (NE' : map (fun p : R * R => Rabs (fst p - (1 - vph / 2))) B <> []) by (intros E; apply map_eq_nil in E; contradiction).
  destruct (argmin_reals _ NE') as [m [EM [Hm _]]]. rewrite map_map in EM. rewrite map_map, EM. cbn [bind]. rewrite map_length in Hm.
  destruct (alpha_total vph (r_alpha_max q) (r_num_b q) B H) as [al EA]. destruct (alpha_nonneg J idc (map fst B) (map snd B) vph (r_alpha_max q) (r_num_b q) al) as [LA _]; [now rewrite !map_length|assumption|]. rewrite map_length in LA.
  assert (LA' : length al = length (map fst B)) by now rewrite map_length.
  unfold ac_side. rewrite EA. cbn [bind]. rewrite (bcast_eq _ al (map fst B)) by assumption. cbn [bind]. rewrite bcast_eq by (rewrite zipwith_length by assumption; apply map_length). cbn [bind].
  set (ai := zipwith cdiv _ _). assert (LI : length ai = length al) by (unfold ai; rewrite zipwith_length; rewrite map_length; [reflexivity|now rewrite zipwith_length by assumption]).
  rewrite (pyget_nth ai (Z.of_nat m) None) by lia. cbn [bind]. destruct (grid_total (map (fun a => RtoC (a * vph)) al) ai q) as [[[[s zt] vt] fit] EG]; [now rewrite map_length|]. rewrite EG. cbn [bind].
  rewrite (pyget_nth al (Z.of_nat m) 0) by lia. cbn [bind]. eauto.
Qed.

(** ** One sample without drive spoils the recovery *)
Lemma iter_zero f i s n : 0 <= s -> i <= f 0 -> fst (Nat.iter n (refine f i) (0, s)) = 0.
Proof.
  intros Hs H. pose proof (fun n => iter_step f i 0 s n) as ES. induction n as [|n IH]; cbn [Nat.iter nat_rect]; [reflexivity|]. specialize (ES n). unfold Nat.iter in *. destruct (nat_rect _ _ _ n) as [a' s']. cbn [fst snd] in *. subst a' s'.
  pose proof (half_pow n) as P. assert (Hh : 0 <= s / 2 ^ n) by (apply Rmult_le_pos; lra). cbn [refine]. cbn [fst]. rewrite clamp. destruct (Rltb_spec 0 (f 0 - i)) as [L|L]; [apply Rmax_left; lra|]. destruct (Rltb_spec (f 0 - i) 0) as [L'|L']; [lra|]. apply Rmax_left; lra.
Qed.
Theorem recover_undriven voltage current vph q lo hi V I : J 0%nat 0 = 1 -> (forall n, (0 < n)%nat -> J n 0 = 0) -> length voltage = length current -> range_used q lo hi -> r_zemb q = None -> 0 < r_alpha_max q ->
  let B := step_samples vph lo hi voltage current in
  (forall p, In p B -> idc (fst p) < pumped_iv J idc vph (r_alpha_max q) (r_num_b q) (fst p)) -> In (V, I) B -> I <= idc V ->
  exists r, recover_zemb J idc ikk voltage current vph q = Ok r /\ rec_zt r = (fst (r_remb q), fst (r_xemb q)) /\ rec_vt r = FNaN /\ rec_fit r = false.
Proof.
  intros J0 JN L RU ZN A B UP HV LE. destruct (recover_total voltage current vph q lo hi L RU) as [r H].
  { fold B. intros E. rewrite E in HV. destruct HV. }
  { fold B. intros p Hp. specialize (UP p Hp). lra. }
  exists r. split; [assumption|]. destruct (recover_inv _ _ _ _ _ lo hi L (range_limits _ _ _ RU) H) as [al [m [EA [LA [EG _]]]]]. cbv zeta in EG. fold B in EA, LA, EG.
  apply (In_nth _ _ (0, 0)) in HV. destruct HV as [k [K EK]].
  assert (AZ : nth k al 0 = 0).
  { destruct (alpha_nth J idc vph (r_alpha_max q) (r_num_b q) (map fst B) (map snd B) al) as [_ N]; [now rewrite !map_length|assumption|]. rewrite map_length in N. destruct (N k K) as [_ E].
    rewrite (nth_map_in fst B k 0 (0, 0)), (nth_map_in snd B k 0 (0, 0)), EK in E by assumption. cbn [fst snd] in E. rewrite E.
    assert (UV : idc V < pumped_iv J idc vph (r_alpha_max q) (r_num_b q) V) by (apply (UP (V, I)); rewrite <- EK; now apply nth_In).
    replace (guess J idc vph (r_alpha_max q) (r_num_b q) V I) with 0.
    - apply iter_zero; [lra|]. now rewrite pumped_undriven.
    - unfold guess. symmetry. apply Rmax_left. set (D := pumped_iv J idc vph (r_alpha_max q) (r_num_b q) V - idc V). assert (0 < / D) by (apply Rinv_0_lt_compat; unfold D; lra). unfold Rdiv.
      assert (0 <= (idc V - I) * / D * r_alpha_max q) by (apply Rmult_le_pos; [apply Rmult_le_pos|]; lra). lra. }
  set (O := map (raw_sample vph (r_num_b q)) (List.combine B al)) in *.
  assert (IN : In (RtoC (0 * vph), None) O).
  { unfold O. assert (E : (RtoC (0 * vph), None) = raw_sample vph (r_num_b q) ((V, I), 0)) by (unfold raw_sample; cbn [fst snd]; rewrite ac_undriven by assumption; now rewrite cdiv_none). rewrite E. apply in_map. rewrite <- EK, <- AZ. rewrite <- combine_nth by now symmetry. apply nth_In. rewrite combine_length. lia. }
  assert (UN : forall zs, error_function (map fst O) (map snd O) zs = Ok FNaN /\ find_source_voltage (map fst O) (map snd O) zs = Ok FNaN) by (intros zs; now apply (error_undefined O zs (RtoC (0 * vph), None))).
  assert (LL : length (map fst O) = length (map snd O)) by now rewrite !map_length.
  apply grid_inv in EG; [|assumption]. destruct EG as [i [EI [_ [EZ [ES EF]]]]].
  assert (TE : forall zs, the_error (map fst O) (map snd O) zs = FNaN) by (intros zs; unfold the_error; now rewrite (proj1 (UN zs))).
  assert (I0 : i = 0%nat).
  { pose proof (surf_flat (map fst O) (map snd O) q LL 0) as S0. change (0 mod 201)%nat with 0%nat in S0. change (0 / 201)%nat with 0%nat in S0. rewrite surf_nth in S0 by lia. rewrite TE in S0.
    destruct (List.concat _) as [|a l] eqn:EC in S0, EI; [discriminate|]. cbn [nth] in S0. subst a. rewrite argmin_nan in EI. apply ok_inj in EI. now symmetry. }
  subst i. change (0 mod 201)%nat with 0%nat in *. change (0 / 201)%nat with 0%nat in *. rewrite ZN, grid_nth in EZ by lia. rewrite surf_nth, TE in EF by lia. split; [|split].
  - rewrite EZ. unfold grid_point. cbn [INR]. f_equal; ring.
  - rewrite (proj2 (UN (rec_zt r))) in ES. apply ok_inj in ES. now symmetry.
  - exact EF.
Qed.
End Recover.
