(** Property C175: several tones without harmonics.  How much the tunnelling currents and the
    balanced junction voltages change from one bias point of the sweep to another. *)
From Coq Require Import List ZArith Lia Bool Arith Reals Lra String.
From Coquelicot Require Import Complex.
From Verif Require Import Base Sums Round Bessel Model_QtCurrent Spec_QtCurrent Spec_QtApi Spec_Power Model_Circuit Model_HB Spec_HB Spec_HBConv
  Proof_QtCurrent Proof_QtCurrent2 Proof_QtSym Proof_QtApi Proof_QtApi2 Proof_HB3 Proof_QtWit Proof_HBWit Proof_HBWit2 Proof_HBWit4 Proof_HBLip Proof_HBConv3 Proof_Lip1 Spec_LipMany Proof_LipMany Spec_TruncMany Spec_BiasLip Proof_BiasLip.
Import ListNotations.
Local Notation length := List.length.
Open Scope R_scope.

(** From one bias point to another, the current of a lone mixing product changes by at most
    twice what the response function can rise over the difference of the bias voltages, and
    [4 * M] per photon step between the junction voltages. *)
Theorem C175_current : forall q resp num_b M L v w a r i j, args_ok q num_b -> q_num_p q = 1%nat -> alone q w a -> (i < q_npts q)%nat -> (j < q_npts q)%nat ->
  (forall x, shifted (q_vb q i) (truncations num_b (q_num_f q)) (freqs q) x -> Cmod (resp x) <= M) -> slope_at_most resp L ->
  qtcurrent besselJ v q resp (FList [w]) num_b None = Ok (QRows [r]) ->
  Cmod (nth i r (RtoC 0) - nth j r (RtoC 0))%C <= 4 * M * steps_apart q v i j + 2 * L * Rabs (q_vb q i - q_vb q j).
Proof. exact points_call. Qed.
Print Assumptions C175_current.

(** Junction voltages that balance the circuit change in proportion to the bias voltage. *)
Theorem C175_solution : forall c resp num_b M L nu, args_ok (h_q c) num_b -> q_num_p (h_q c) = 1%nat -> separate (h_q c) -> 0 <= M -> 0 < nu -> (forall f, (1 <= f <= q_num_f (h_q c))%nat -> nu <= q_freq (h_q c) f) ->
  (forall i x, (i < q_npts (h_q c))%nat -> shifted (q_vb (h_q c) i) (truncations num_b (q_num_f (h_q c))) (freqs (h_q c)) x -> Cmod (resp x) <= M) -> slope_at_most resp L ->
  forall s i j, solution besselJ c resp num_b s -> (i < q_npts (h_q c))%nat -> (j < q_npts (h_q c))%nat ->
  (1 - 4 * M * impedances c / nu) * apart (h_q c) s i j <= 2 * L * impedances c * Rabs (q_vb (h_q c) i - q_vb (h_q c) j).
Proof. exact solution_points. Qed.
Print Assumptions C175_solution.

(** The voltages that a converged run returns do so up to the error the target allows. *)
Theorem C175_run : forall c resp num_b M L nu inv max_it stop vj0 d zj v it, q_num_p (h_q c) = 1%nat -> separate (h_q c) -> 0 <= M -> 0 < nu -> (forall f, (1 <= f <= q_num_f (h_q c))%nat -> nu <= q_freq (h_q c) f) ->
  (forall i x, (i < q_npts (h_q c))%nat -> shifted (q_vb (h_q c) i) (truncations num_b (q_num_f (h_q c))) (freqs (h_q c)) x -> Cmod (resp x) <= M) -> slope_at_most resp L ->
  simulates c num_b -> inverts inv -> (0 <= max_it)%Z -> r_ret (harmonic_balance besselJ inv c resp num_b max_it stop vj0 d "x" zj) = Ok (RetX v it true) ->
  everywhere (h_q c) (fun f p i => ~ undefined besselJ (driven c) resp num_b v f p i) ->
  forall i j, (i < q_npts (h_q c))%nat -> (j < q_npts (h_q c))%nat ->
  (1 - 4 * M * impedances c / nu) * apart (h_q c) v i j <= stop * (total (h_q c) (fun f p => Cmod (v f p i)) + total (h_q c) (fun f p => Cmod (v f p j))) + 2 * L * impedances c * Rabs (q_vb (h_q c) i - q_vb (h_q c) j).
Proof. exact run_points. Qed.
Print Assumptions C175_run.

(** Two tones at 2 and 3, a response that turns with the voltage, impedances of 1/64 and bias
    voltages 0, 1/4, 1/2 and so on. *)
Definition bl_q : qcct := {| q_num_f := 2; q_num_p := 1; q_npts := 9; q_freq := fun f => match f with 1%nat => 2 | _ => 3 end; q_vb := fun i => INR i / 4 |}.
Definition bl_c : hcct := {| h_q := bl_q; h_vt := fun f p => RtoC 1; h_zt := fun f p => RtoC (1 / 64); h_wvt := true |}.
Definition bl_resp (v : R) : C := cis v.
Lemma bl_args : args_ok bl_q (NbTuple [3; 2]%nat).
Proof. unfold args_ok. cbn [bl_q q_num_f q_num_p q_freq length]. repeat split; try lia. intros [|[|f]] _; lra. Qed.
Lemma bl_in a : In a (index_vectors 1 2) -> exists x y, a = [x; y] /\ (x = -1 \/ x = 0 \/ x = 1)%Z /\ (y = -1 \/ y = 0 \/ y = 1)%Z.
Proof.
  intros H. apply in_index_vectors in H. destruct H as [L F]. destruct a as [|x [|y [|z a]]]; try discriminate. exists x, y. split; [reflexivity|].
  inversion F as [|? ? X F']; subst. inversion F' as [|? ? Y F'']; subst. cbn in X, Y. lia.
Qed.
Ltac bl_alone := intros a H E; change (q_num_p bl_q) with 1%nat in H; change (q_num_f bl_q) with 2%nat in H; destruct (bl_in a H) as (x & y & -> & X & Y); apply round4_close in E;
  unfold freqs in E; cbn [bl_q q_num_f q_freq seq map dot] in E;
  destruct X as [-> | [-> | ->]]; destruct Y as [-> | [-> | ->]]; try reflexivity; exfalso; revert E; unfold Rabs; destruct Rcase_abs; lra.
Lemma bl_alone_1 : alone bl_q 2 [1; 0]%Z.
Proof. bl_alone. Qed.
Lemma bl_alone_2 : alone bl_q 3 [0; 1]%Z.
Proof. bl_alone. Qed.
Lemma bl_separate : separate bl_q.
Proof. intros f F. cbn [bl_q q_num_f] in F. assert (f = 1%nat \/ f = 2%nat) as [-> | ->] by lia; cbn [bl_q q_freq]; eexists; [exact bl_alone_1|exact bl_alone_2]. Qed.
Lemma bl_unit v : Cmod (bl_resp v) <= 1.
Proof. unfold bl_resp. rewrite cis_mod. lra. Qed.
Lemma sin_small x : sin x ^ 2 <= x ^ 2.
Proof.
  assert (P : forall x, 0 < x -> Rabs (sin x) <= x). { intros y Y. pose proof (sin_lt_x y Y). destruct (Rle_lt_dec y 1) as [S|S]; [|pose proof (SIN_bound y); unfold Rabs; destruct Rcase_abs; lra]. assert (0 < sin y) by (apply sin_gt_0; [assumption|pose proof PI_4; pose proof PI2_1; lra]). rewrite Rabs_pos_eq; lra. }
  rewrite <- (pow2_abs (sin x)). destruct (Rtotal_order x 0) as [N|[Z|Y]].
  - specialize (P (- x) ltac:(lra)). rewrite sin_neg, Rabs_Ropp in P. replace (x ^ 2) with ((- x) ^ 2) by ring. apply pow_incr. split; [apply Rabs_pos|assumption].
  - subst. rewrite sin_0, Rabs_R0. lra.
  - apply pow_incr. split; [apply Rabs_pos|now apply P].
Qed.
Lemma bl_slope : slope_at_most bl_resp 1.
Proof.
  intros x y. rewrite Rmult_1_l. unfold bl_resp. pose proof (polar_sq 1 1 x y) as H. assert (S := sin_small ((x - y) / 2)).
  replace (cos (x - y)) with (cos (2 * ((x - y) / 2))) in H by (f_equal; field). rewrite cos_2a_sin in H. replace (RtoC 1 * cis x - RtoC 1 * cis y)%C with (cis x - cis y)%C in H by ring.
  apply Rsqr_incr_0; [|apply Cmod_ge_0|apply Rabs_pos]. rewrite <- Rsqr_abs. unfold Rsqr. lra.
Qed.
Lemma bl_imp : impedances bl_c = 1 / 32.
Proof. unfold impedances. cbn [bl_c h_q h_zt bl_q q_num_f rsum_to]. rewrite Cmod_R, Rabs_pos_eq; lra. Qed.
(** From the first bias point to the last, over two units, balanced voltages change by less
    than a seventh; the same circuit meets the conditions on a run. *)
Example C175_case : (forall s, solution besselJ bl_c bl_resp (NbTuple [3; 2]%nat) s -> apart bl_q s 0 8 <= 2 / 15) /\
  (exists s, solution besselJ bl_c bl_resp (NbTuple [3; 2]%nat) s) /\
  simulates bl_c (NbTuple [3; 2]%nat) /\ exists N, forall max_it, (Z.of_nat N < max_it)%Z -> exists v m, r_ret (harmonic_balance besselJ exact_inv bl_c bl_resp (NbTuple [3; 2]%nat) max_it (1 / 1000) None 1 "x" (RtoC (1 / 2))) = Ok (RetX v (Z.of_nat m) true).
Proof.
  assert (MZ : Cmod (RtoC (1 / 64)) = 1 / 64) by (rewrite Cmod_R, Rabs_pos_eq; lra).
  assert (NU : forall f, (1 <= f <= q_num_f bl_q)%nat -> 2 <= q_freq bl_q f) by (intros [|[|f]] F; cbn [bl_q q_freq]; lra).
  assert (SI : simulates bl_c (NbTuple [3; 2]%nat)). { split; [exact bl_args|]. split; [cbn; lia|]. split; [reflexivity|]. exists 1%nat, 1%nat. cbn [bl_c h_q h_zt bl_q q_num_f q_num_p]. repeat split; try lia. intros E. apply (f_equal fst) in E. cbn in E. lra. }
  split; [|split; [|split; [exact SI|]]].
  - intros s S. pose proof (C175_solution bl_c bl_resp (NbTuple [3; 2]%nat) 1 1 2 bl_args eq_refl bl_separate ltac:(lra) ltac:(lra) NU (fun i x _ _ => bl_unit x) bl_slope s 0%nat 8%nat S ltac:(cbn; lia) ltac:(cbn; lia)) as H.
    rewrite bl_imp in H. cbn [bl_c h_q] in H. cbn [bl_q q_vb] in H. replace (INR 0 / 4 - INR 8 / 4) with (- (2)) in H by (simpl INR; field). rewrite Rabs_Ropp, Rabs_pos_eq in H by lra. fold bl_q in H. lra.
  - apply (solution_exists besselJ bl_c bl_resp (NbTuple [3; 2]%nat) (4 * 1 * impedances bl_c / 2)); [rewrite bl_imp; lra|].
    exact (many_follows bl_c bl_resp (NbTuple [3; 2]%nat) 1 bl_args eq_refl bl_separate (fun i x _ _ => bl_unit x) ltac:(lra) 2 ltac:(lra) NU).
  - destruct (many_converges bl_c bl_resp (NbTuple [3; 2]%nat) 1 bl_args eq_refl bl_separate (fun i x _ _ => bl_unit x) ltac:(lra) SI) as [s [_ [_ HN]]].
    + intros f F. change (zsum_c bl_c) with (impedances bl_c). rewrite bl_imp. cbn [bl_c h_q bl_q q_freq]. destruct f as [|[|f]]; lra.
    + intros f F. cbn [bl_c h_vt h_zt]. rewrite MZ, source_big by apply big_1. rewrite Cmod_1. lra.
    + destruct (HN exact_inv 1 None (RtoC (1 / 2)) (1 / 1000) exact_inv_inverts) as [N H]; try lra.
      * right. intros f p _. cbn [bl_c h_zt]. rewrite <- RtoC_plus. intros E. apply (f_equal fst) in E. cbn [fst RtoC] in E. lra.
      * exists N. intros max_it HM. destruct (H max_it HM) as (v & m & R1 & _). eauto.
Qed.
