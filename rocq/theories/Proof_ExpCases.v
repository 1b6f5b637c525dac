(** Concrete cases for the theorems about impedance recovery and data objects. *)
From Coq Require Import List ZArith Reals Lra Lia Bool Arith String.
From Coquelicot Require Import Coquelicot.
From Verif Require Import Base Float NumPy Model_QtCurrent Model_CleanData Model_RespFn Model_Tucker Model_IVData Model_ExpData Spec_QtCurrent Spec_CleanData Spec_RespFn Spec_IVData Spec_IFData Spec_ExpData Proof_NumPy Proof_Circuit Proof_HB Proof_RespFn2 Proof_IVModels Proof_IVLoad Proof_IVData Proof_IVCurve Proof_IFNoise Proof_Recover Proof_Recover2 Proof_Recover3 Proof_ExpData.
Import ListNotations.
Open Scope R_scope.
Local Notation length := List.length.
Local Notation Forall := List.Forall.

(** ** The error function *)
Definition two : list (C * C) := [(RtoC (3 / 2), Ci); (RtoC (3 / 2), Copp Ci)].
Lemma C_neq (a b : C) : fst a <> fst b \/ snd a <> snd b -> a <> b.
Proof. intros [H|H] ->; now apply H. Qed.
Lemma two_connectable z : 0 < fst z -> connectable two z.
Proof.
  intros H. split.
  - intros p [<-|[<-|[]]]; apply C_neq; left; cbn; lra.
  - exists (RtoC (3 / 2), Ci). split; [now left|]. apply C_neq. right. cbn. lra.
Qed.
Lemma Cmod_ratio a b : b <> RtoC 0 -> Cmod (Cdiv a b) = Cmod a / Cmod b.
Proof. apply Cmod_div. Qed.
Lemma Cmod_Ci : Cmod Ci = 1.
Proof. unfold Cmod. cbn. replace (0 * (0 * 1) + 1 * (1 * 1)) with 1 by ring. apply sqrt_1. Qed.
Lemma two_mismatch z V : 0 < fst z -> mismatch two z V = ((3 / 2 - V / Cmod (Cplus z Ci)) ^ 2 + (3 / 2 - V / Cmod (Cplus z (Copp Ci))) ^ 2) / 2.
Proof.
  intros H. unfold mismatch, two. cbn [map fold_right fst snd List.length]. rewrite !Cmod_ratio by (apply C_neq; left; cbn; lra). rewrite Cmod_opp, Cmod_Ci, Cmod_R, Rabs_right by lra.
  replace (INR 2) with 2 by (cbn; ring). unfold Rdiv. ring.
Qed.
Lemma two_real x : 0 < x -> Cmod (Cplus (x, 0) Ci) = Cmod (Cplus (x, 0) (Copp Ci)).
Proof. intros H. unfold Cmod. f_equal. cbn. ring. Qed.
Lemma two_fit x : 0 < x -> exists V, mismatch two (x, 0) V = 0.
Proof.
  intros H. exists (3 / 2 * Cmod (Cplus (x, 0) Ci)). rewrite two_mismatch by assumption. rewrite <- two_real by assumption.
  assert (0 < Cmod (Cplus (x, 0) Ci)) by (apply Cmod_gt_0; apply C_neq; left; cbn; lra). set (c := Cmod _) in *. replace (3 / 2 * c / c) with (3 / 2) by (field; lra). field.
Qed.
Lemma two_misfit V : 1 / 1000 < mismatch two (1, 1) V.
Proof.
  rewrite two_mismatch by (cbn; lra). replace (Cmod (Cplus (1, 1) (Copp Ci))) with 1.
  2: { unfold Cmod. cbn. replace ((1 + - 0) * ((1 + - 0) * 1) + (1 + - (1)) * ((1 + - (1)) * 1)) with 1 by ring. now rewrite sqrt_1. }
  assert (2 <= Cmod (Cplus (1, 1) Ci)).
  { unfold Cmod. cbn. replace ((1 + 0) * ((1 + 0) * 1) + (1 + 1) * ((1 + 1) * 1)) with 5 by ring. rewrite <- (sqrt_square 2) by lra. apply sqrt_le_1; lra. }
  set (c := Cmod _) in *. assert (B : 0 < / c <= / 2) by (split; [apply Rinv_0_lt_compat; lra|apply Rinv_le_contravar; lra]). unfold Rdiv. set (k := / c) in *. clearbody k. replace (/ 1) with 1 by field.
  destruct (Rlt_or_le (1 / 10) (Rabs (3 * / 2 - V))) as [L|L].
  - assert (1 / 100 < (3 * / 2 - V * 1) ^ 2). { replace ((3 * / 2 - V * 1) ^ 2) with (Rabs (3 * / 2 - V) ^ 2) by (rewrite pow2_abs; f_equal; ring). nra. } pose proof (pow2_ge_0 (3 * / 2 - V * k)). lra.
  - apply Rabs_le_between in L. assert (V * k <= 8 / 10) by nra. assert (49 / 100 <= (3 * / 2 - V * k) ^ 2) by nra. pose proof (pow2_ge_0 (3 * / 2 - V * 1)). lra.
Qed.

(** ** Recovery from two samples *)
Section Two.
Variable J : nat -> R -> R.
Hypothesis J0 : J 0%nat (3 / 2) <> 0.
Hypothesis J1 : J 1%nat (3 / 2) <> 0.
Hypothesis J2 : (J 0%nat (3 / 2)) ^ 2 <> 1.
Definition one_idc (v : R) : R := 1.
Definition step_ikk (v : R) : R := if Rlt_dec v (1 / 2) then 3 / (4 * J 0%nat (3 / 2) * J 1%nat (3 / 2)) else - (3 / (4 * J 0%nat (3 / 2) * J 1%nat (3 / 2))).
Definition two_v : list R := [4 / 10; 6 / 10].
Definition two_i : list R := [(J 0%nat (3 / 2)) ^ 2; (J 0%nat (3 / 2)) ^ 2].
Definition two_q (z : option C) : recparams :=
  {| r_fit_range := None; r_cut_low := None; r_cut_high := None; r_remb := (1, 2); r_xemb := (-1, 1); r_zemb := z; r_alpha_max := 3 / 2; r_num_b := 0 |}.
Lemma two_pumped a v : pumped_iv J one_idc 1 a 0 v = (J 0%nat a) ^ 2.
Proof. unfold pumped_iv. change (zrange (- Z.of_nat 0) (Z.of_nat 0 + 1)) with [0%Z]. cbn [fold_left]. unfold one_idc, besselZ. cbn [Z.ltb Z.compare]. change (Z.to_nat 0) with 0%nat. ring. Qed.
Lemma two_ac v : ac_current J one_idc step_ikk 1 (3 / 2) 0 v = if Rlt_dec v (1 / 2) then (0, - (3 / 2)) else (0, 3 / 2).
Proof.
  unfold ac_current. change (zrange (- Z.of_nat 0) (Z.of_nat 0 + 1)) with [0%Z]. cbn [fold_left].
  assert (B0 : besselZ J 0 (3 / 2) = J 0%nat (3 / 2)) by reflexivity. assert (B1 : besselZ J (0 + 1) (3 / 2) = J 1%nat (3 / 2)) by reflexivity.
  assert (BM : besselZ J (0 - 1) (3 / 2) = - J 1%nat (3 / 2)) by (unfold besselZ; cbn [Z.sub Z.add Z.opp Z.ltb Z.compare]; change (Z.to_nat 1) with 1%nat; ring).
  rewrite B0, B1, BM. replace (v + 0 * 1) with v by ring. unfold step_ikk, one_idc. destruct (Rlt_dec v (1 / 2)); unfold RtoC, Ci, Cplus, Cmult; cbn [fst snd]; f_equal; field; auto.
Qed.
Lemma two_samples : step_samples 1 (1 / 4) (8 / 10) two_v two_i = [(4 / 10, (J 0%nat (3 / 2)) ^ 2); (6 / 10, (J 0%nat (3 / 2)) ^ 2)].
Proof.
  unfold step_samples, two_v, two_i. cbn [List.combine filter fst]. destruct (Rle_dec (1 - 1 + 1 * (1 / 4)) (4 / 10)); [|lra]. destruct (Rle_dec (4 / 10) (1 - 1 + 1 * (8 / 10))); [|lra].
  destruct (Rle_dec (1 - 1 + 1 * (1 / 4)) (6 / 10)); [|lra]. destruct (Rle_dec (6 / 10) (1 - 1 + 1 * (8 / 10))); [|lra]. reflexivity.
Qed.
Lemma iter_fixed f i a s n : 0 <= a -> f a = i -> fst (Nat.iter n (refine f i) (a, s)) = a.
Proof.
  intros A E. induction n as [|n IH]; cbn [Nat.iter nat_rect]; [reflexivity|]. unfold Nat.iter in *. destruct (nat_rect _ _ _ n) as [a' s']. cbn [fst] in *. subst a'. cbn [refine]. cbn [fst]. rewrite clamp.
  destruct (Rltb_spec 0 (f a - i)); [lra|]. destruct (Rltb_spec (f a - i) 0); [lra|]. now apply Rmax_right.
Qed.
Lemma two_alpha al : find_alpha J one_idc [4 / 10; 6 / 10] [(J 0%nat (3 / 2)) ^ 2; (J 0%nat (3 / 2)) ^ 2] 1 (3 / 2) 0 = Ok al -> al = [3 / 2; 3 / 2].
Proof.
  intros H. destruct (alpha_nth J one_idc 1 (3 / 2) 0 [4 / 10; 6 / 10] [(J 0%nat (3 / 2)) ^ 2; (J 0%nat (3 / 2)) ^ 2] al eq_refl H) as [L N]. cbn [List.length] in L.
  assert (G : forall v, fst (Nat.iter 15 (refine (fun a => pumped_iv J one_idc 1 a 0 v) ((J 0%nat (3 / 2)) ^ 2)) (guess J one_idc 1 (3 / 2) 0 v ((J 0%nat (3 / 2)) ^ 2), 3 / 2 / 4)) = 3 / 2).
  { intros v. replace (guess J one_idc 1 (3 / 2) 0 v ((J 0%nat (3 / 2)) ^ 2)) with (3 / 2); [apply iter_fixed; [lra|apply two_pumped]|].
    unfold guess. rewrite two_pumped. unfold one_idc. replace (((J 0%nat (3 / 2)) ^ 2 - 1) / ((J 0%nat (3 / 2)) ^ 2 - 1) * (3 / 2)) with (3 / 2) by (field; lra). symmetry. apply Rmax_right. lra. }
  destruct (N 0%nat) as [_ E0]; [cbn [List.length]; lia|]. destruct (N 1%nat) as [_ E1]; [cbn [List.length]; lia|]. cbn [nth] in E0, E1. rewrite G in E0, E1.
  destruct al as [|a [|b [|c al]]]; cbn [List.length] in L; try discriminate. cbn [nth] in E0, E1. now subst.
Qed.
Lemma two_points : samples J one_idc step_ikk 1 0 [(4 / 10, (J 0%nat (3 / 2)) ^ 2); (6 / 10, (J 0%nat (3 / 2)) ^ 2)] [3 / 2; 3 / 2] = two.
Proof.
  unfold samples, two, junction_sample. cbn [List.combine map fst snd]. rewrite !two_ac. destruct (Rlt_dec (4 / 10) (1 / 2)); [|lra]. destruct (Rlt_dec (6 / 10) (1 / 2)); [lra|].
  assert (E1 : Cdiv (RtoC (3 / 2 * 1)) (0, - (3 / 2)) = Ci) by (unfold Cdiv, Cinv, Cmult, Ci, RtoC; cbn [fst snd]; f_equal; field).
  assert (E2 : Cdiv (RtoC (3 / 2 * 1)) (0, 3 / 2) = Copp Ci) by (unfold Cdiv, Cinv, Cmult, Ci, Copp, RtoC; cbn [fst snd]; f_equal; field). rewrite E1, E2. now replace (3 / 2 * 1) with (3 / 2) by ring.
Qed.
Lemma two_range z : range_used (two_q z) (1 / 4) (8 / 10).
Proof. right. auto. Qed.
Lemma two_runs z : exists r, recover_zemb J one_idc step_ikk two_v two_i 1 (two_q z) = Ok r.
Proof.
  apply (recover_total J one_idc step_ikk two_v two_i 1 (two_q z) (1 / 4) (8 / 10) eq_refl (two_range z)); rewrite two_samples; [discriminate|]. intros p _. cbn [r_alpha_max r_num_b two_q]. rewrite two_pumped. exact J2.
Qed.
Lemma two_nonzero p : In p (List.combine [(4 / 10, (J 0%nat (3 / 2)) ^ 2); (6 / 10, (J 0%nat (3 / 2)) ^ 2)] [3 / 2; 3 / 2]) -> ac_current J one_idc step_ikk 1 (snd p) 0 (fst (fst p)) <> RtoC 0.
Proof. intros [<-|[<-|[]]]; cbn [fst snd]; rewrite two_ac; destruct (Rlt_dec _ _); apply C_neq; right; cbn; lra. Qed.
Lemma two_grid i j : 0 < fst (grid_point (1, 2) (-1, 1) i j).
Proof. unfold grid_point. cbn [fst snd]. pose proof (pos_INR i). nra. Qed.
Lemma two_center : grid_point (1, 2) (-1, 1) 0 100 = (1, 0).
Proof. unfold grid_point. cbn [fst snd]. f_equal; [cbn; ring|]. rewrite INR_IZR_INZ. change (Z.of_nat 100) with 100%Z. field. Qed.

Lemma flag_forced : exists idc ikk v i vph q r al, length v = length i /\ range_used q (1 / 4) (8 / 10) /\ recover_zemb J idc ikk v i vph q = Ok r /\
  find_alpha J idc (map fst (step_samples vph (1 / 4) (8 / 10) v i)) (map snd (step_samples vph (1 / 4) (8 / 10) v i)) vph (r_alpha_max q) (r_num_b q) = Ok al /\
  rec_fit r = true /\ forall V, 1 / 1000 < mismatch (map (fun p => junction_sample J idc ikk vph (r_num_b q) (fst (fst p)) (snd p)) (List.combine (step_samples vph (1 / 4) (8 / 10) v i) al)) (rec_zt r) V.
Proof.
  destruct (two_runs (Some (1, 1))) as [r H]. exists one_idc, step_ikk, two_v, two_i, 1, (two_q (Some (1, 1))), r, [3 / 2; 3 / 2].
  destruct (recover_forced J one_idc step_ikk two_v two_i 1 (two_q (Some (1, 1))) r (1 / 4) (8 / 10) (1, 1) eq_refl (two_range _) eq_refl H) as [al [EA G]]. cbv zeta in G. rewrite two_samples in *. cbn [map fst snd r_alpha_max r_num_b r_remb r_xemb two_q] in *.
  pose proof (two_alpha al EA). subst al. fold (samples J one_idc step_ikk 1 0 [(4 / 10, (J 0%nat (3 / 2)) ^ 2); (6 / 10, (J 0%nat (3 / 2)) ^ 2)] [3 / 2; 3 / 2]) in *.
  rewrite two_points in *. destruct G as [EZ [_ EF]]; [apply two_nonzero|intros; apply two_connectable, two_grid|apply two_connectable; cbn; lra|].
  split; [reflexivity|]. split; [apply two_range|]. split; [assumption|]. split; [assumption|]. split; [|rewrite EZ; apply two_misfit].
  apply EF. destruct (two_fit 1 ltac:(lra)) as [V EV]. exists 0%nat, 100%nat, V. split; [lia|]. split; [lia|]. rewrite two_center, EV. lra.
Qed.
Lemma best_case : exists idc ikk v i vph q r al, length v = length i /\ range_used q (1 / 4) (8 / 10) /\ r_zemb q = None /\ recover_zemb J idc ikk v i vph q = Ok r /\
  let B := step_samples vph (1 / 4) (8 / 10) v i in
  find_alpha J idc (map fst B) (map snd B) vph (r_alpha_max q) (r_num_b q) = Ok al /\ (2 <= length B)%nat /\
  (forall p, In p (List.combine B al) -> ac_current J idc ikk vph (snd p) (r_num_b q) (fst (fst p)) <> RtoC 0) /\
  (forall i j, (i <= 100)%nat -> (j <= 200)%nat -> connectable (map (fun p => junction_sample J idc ikk vph (r_num_b q) (fst (fst p)) (snd p)) (List.combine B al)) (grid_point (r_remb q) (r_xemb q) i j)) /\ rec_fit r = true.
Proof.
  destruct (two_runs None) as [r H]. exists one_idc, step_ikk, two_v, two_i, 1, (two_q None), r, [3 / 2; 3 / 2]. cbv zeta.
  destruct (recover_best J one_idc step_ikk two_v two_i 1 (two_q None) r (1 / 4) (8 / 10) eq_refl (two_range _) eq_refl H) as [al [EA G]]. cbv zeta in G. rewrite two_samples in *. cbn [map fst snd r_alpha_max r_num_b r_remb r_xemb two_q] in *.
  pose proof (two_alpha al EA). subst al. fold (samples J one_idc step_ikk 1 0 [(4 / 10, (J 0%nat (3 / 2)) ^ 2); (6 / 10, (J 0%nat (3 / 2)) ^ 2)] [3 / 2; 3 / 2]) in *.
  rewrite two_points in *. destruct G as [i [j [V [I [K [EZ [_ [M EF]]]]]]]]; [apply two_nonzero|intros; apply two_connectable, two_grid|].
  split; [reflexivity|]. split; [apply two_range|]. split; [reflexivity|]. split; [assumption|]. split; [assumption|]. split; [cbn [List.length]; lia|]. split; [apply two_nonzero|]. split; [intros; apply two_connectable, two_grid|].
  apply EF. destruct (two_fit 1 ltac:(lra)) as [V' EV]. specialize (M 0%nat 100%nat V' ltac:(lia) ltac:(lia)). rewrite two_center, EV in M. lra.
Qed.
End Two.
Lemma Bessel_like : exists J : nat -> R -> R, J 0%nat (3 / 2) <> 0 /\ J 1%nat (3 / 2) <> 0 /\ (J 0%nat (3 / 2)) ^ 2 <> 1.
Proof. exists (fun n _ => 1 / 2). repeat split; lra. Qed.

(** ** A sample without drive *)
Definition lin_J (n : nat) (x : R) : R := match n with 0%nat => 1 + x | _ => x end.
Lemma lin_pumped a v : pumped_iv lin_J one_idc 1 a 0 v = (1 + a) ^ 2.
Proof. rewrite two_pumped. reflexivity. Qed.
Lemma undriven_case : lin_J 0 0 = 1 /\ (forall n, (0 < n)%nat -> lin_J n 0 = 0) /\ range_used (two_q None) (1 / 4) (8 / 10) /\
  let B := step_samples 1 (1 / 4) (8 / 10) [4 / 10; 6 / 10] [2; 9 / 10] in
  (forall p, In p B -> one_idc (fst p) < pumped_iv lin_J one_idc 1 (r_alpha_max (two_q None)) (r_num_b (two_q None)) (fst p)) /\ In (6 / 10, 9 / 10) B /\ 9 / 10 <= one_idc (6 / 10).
Proof.
  split; [cbn; ring|]. split; [intros [|n] H; [lia|reflexivity]|]. split; [apply two_range|]. cbv zeta. split; [intros p _; cbn [r_alpha_max r_num_b two_q]; rewrite lin_pumped; unfold one_idc; lra|]. split; [|unfold one_idc; lra].
  unfold step_samples. apply filter_In. split; [right; now left|]. cbn [fst]. destruct (Rle_dec (1 - 1 + 1 * (1 / 4)) (6 / 10)); [|lra]. destruct (Rle_dec (6 / 10) (1 - 1 + 1 * (8 / 10))); [reflexivity|lra].
Qed.

(** ** Drive level *)
Lemma alpha_case : exists l, find_alpha lin_J one_idc [1 / 2] [4] 1 (3 / 2) 0 = Ok l /\ 0 < 3 / 2 /\ pumped_iv lin_J one_idc 1 1 0 (1 / 2) = 4 /\
  increasing_on (fun a => pumped_iv lin_J one_idc 1 a 0 (1 / 2)) 0 (1 + 3 / 2 / 2) /\
  Rabs (Rmax 0 ((4 - one_idc (1 / 2)) / (pumped_iv lin_J one_idc 1 (3 / 2) 0 (1 / 2) - one_idc (1 / 2)) * (3 / 2)) - 1) <= 3 / 2 / 2.
Proof.
  destruct (alpha_total lin_J one_idc 1 (3 / 2) 0 [(1 / 2, 4)]) as [l E].
  { intros p _. rewrite lin_pumped. unfold one_idc. lra. }
  exists l. split; [exact E|]. split; [lra|]. split; [rewrite lin_pumped; ring|]. split.
  - intros x y Hx Hxy Hy. rewrite !lin_pumped. nra.
  - rewrite lin_pumped. unfold one_idc. rewrite Rmax_right by (apply Rmult_le_pos; [apply Rmult_le_pos; [lra|left; apply Rinv_0_lt_compat; lra]|lra]). apply Rabs_le_between. replace ((4 - 1) / ((1 + 3 / 2) ^ 2 - 1) * (3 / 2)) with (6 / 7) by field. lra.
Qed.

(** ** Keyword arguments *)
Open Scope string_scope.
Definition ex_params : dict nat := [("freq", 0%nat); ("area", 7%nat); ("num_b", 20%nat)].
Definition ex_none (v : nat) : bool := (v =? 0)%nat.
Definition ex_acts : list (action nat) := [NewDC nat [("area", 3%nat)]; SetKwarg nat 0 "num_b" 9%nat; NewPumped nat [("freq", 230%nat)]].
Lemma own_case : kwarg (run ex_none (start ex_params) ex_acts) 0 "area" = Some 3%nat /\ kwarg (run ex_none (start ex_params) ex_acts) 0 "num_b" = Some 9%nat /\
  kwarg (run ex_none (start ex_params) ex_acts) 1 "num_b" = Some 20%nat /\ kwarg (run ex_none (start ex_params) ex_acts) 1 "area" = Some 7%nat /\
  kwarg (run ex_none (start ex_params) ex_acts) 1 "freq" = Some 230%nat /\ snd (run ex_none (start ex_params) [NewPumped nat []]) = [].
Proof. repeat split. Qed.
