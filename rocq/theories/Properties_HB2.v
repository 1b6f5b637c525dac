(** Properties C126-C129: power, selections of bias points, restarts and binary64 selection in
    harmonic_balance.  Vocabulary in Spec_HB.v and Spec_HB2.v. *)
From Coq Require Import List ZArith Lia Bool Arith Reals Lra String.
From Coquelicot Require Import Rcomplements Complex.
From Verif Require Import Base Sums Round Bessel Model_QtCurrent Spec_QtCurrent Proof_QtSym Spec_QtApi Model_Circuit Model_HB Spec_HB Spec_HB2 Proof_QtWit
  Model_QtFloat Proof_QtFloat Proof_QtFloat2 Model_HBFloat Proof_Circuit Proof_HB3 Proof_HB5 Proof_HB6 Proof_HB7 Proof_HB8 Proof_HBWit Proof_HBWit2 Proof_HBWit5 Proof_HBFloat.
Import ListNotations.
Open Scope C_scope.

(** ** C126 *)
(** The power delivered to the junction at harmonic p of tone f, in watts, is at most the
    available power of the source (up to the error of the balance). *)
Theorem C126_available_power : forall J inv cc resp num_b max_it stop vj0 damp zj v it vgap rn f p i w,
  let c := of_circ cc in
  let call := harmonic_balance J inv c resp num_b max_it stop vj0 damp "x" zj in
  simulates c num_b -> (0 <= max_it)%Z -> inverts inv -> r_ret call = Ok (RetX v it true) ->
  everywhere (h_q c) (fun f p i => ~ undefined J (r_cct call) resp num_b v f p i) ->
  c_vgap cc = Some vgap -> c_rn cc = Some rn -> (0 < rn)%R ->
  signal (h_q c) f p -> (i < q_npts (h_q c))%nat -> (0 < Re (h_zt c f p))%R -> (/ 10 ^ 10 <= Cmod (h_vt c f p))%R ->
  available_power cc (Z.of_nat f) (Z.of_nat p) "W" = Ok (XFin w) ->
  (vgap ^ 2 / rn * mean_power (v f p i) (current_at J (h_q c) resp num_b v f p i) <= w * (1 + stop * Cmod (v f p i) / Cmod (h_vt c f p)) ^ 2)%R.
Proof. exact power_bound. Qed.
Print Assumptions C126_available_power.

(** A circuit with a source of 1 gap voltage and 1 normal resistance at the only signal (2 mV
    gap, 10 ohms), for a junction that draws no current: a run that converges. *)
Definition supply : circ := {| c_name := ""; c_num_f := 1; c_num_p := 1; c_num_n := 1; c_fgap := None; c_vgap := Some (2 / 1000)%R; c_igap := None; c_rn := Some 10%R;
  c_freq := [1; 1]%R; c_vt := [[Some (RtoC 0); Some (RtoC 0)]; [Some (RtoC 0); Some (RtoC 1)]]; c_zt := [[RtoC 0; RtoC 0]; [RtoC 0; RtoC 1]];
  c_npts := 1; c_vb := [0%R]; c_comment := [[""; ""]; [""; ""]]; w_freq := true; w_vt := true; w_zt := true; w_vb := true |}%string.
Example C126_case : forall J, let c := of_circ supply in exists v,
  let call := harmonic_balance J exact_inv c no_resp (NbInt 1) 2 (/ 10 ^ 3) (Some (fun _ _ _ => RtoC 1)) 1 "x" (RtoC 1) in
  r_ret call = Ok (RetX v 0 true) /\ simulates c (NbInt 1) /\ inverts exact_inv /\ signal (h_q c) 1 1 /\ (0 < q_npts (h_q c))%nat /\
  everywhere (h_q c) (fun f p i => ~ undefined J (r_cct call) no_resp (NbInt 1) v f p i) /\
  Re (h_zt c 1 1) = 1%R /\ Cmod (h_vt c 1 1) = 1%R /\ exists w, available_power supply 1 1 "W" = Ok (XFin w) /\ (0 < w)%R.
Proof.
  intros J c. set (g := (fun _ _ _ => RtoC 1) : arr3).
  assert (S : simulates c (NbInt 1)).
  { split; [split; [cbn; lia|split; [cbn; lia|split; [|exact I]]]|].
    - intros f Hf. cbn in Hf. assert (f = 1%nat) by lia. subst f. cbn. lra.
    - split; [cbn; lia|]. split; [reflexivity|]. exists 1%nat, 1%nat. split; [cbn; lia|]. split; [cbn; lia|]. apply one_neq0. }
  assert (Sig : forall f p i, signal (h_q c) f p -> (i < q_npts (h_q c))%nat -> f = 1%nat /\ p = 1%nat /\ i = 0%nat) by (intros f p i [A B] D; cbn in A, B, D; lia).
  assert (Hnz : everywhere (h_q c) (fun f p i => g f p i <> RtoC 0)) by (intros f p i _ _; apply one_neq0).
  assert (Hb : balanced J (clamped c) no_resp (NbInt 1) (/ 10 ^ 3) g).
  { intros f p i A B. destruct (Sig f p i A B) as [-> [-> ->]]. unfold residual_at. cbn [h_vt h_zt h_q clamped]. rewrite clamp_source by lia. unfold no_resp. rewrite current_at_no_response.
    change (h_vt c 1%nat 1%nat) with (RtoC 1). rewrite (source_big _ big_1). unfold g. match goal with |- (Cmod ?x <= _)%R => replace x with (RtoC 0) by ring end. rewrite Cmod_0, Cmod_1. lra. }
  destruct (hb_immediate J exact_inv c no_resp (NbInt 1) 2 (/ 10 ^ 3) g 1 "x" (RtoC 1) S ltac:(lia) ltac:(lra) Hnz Hb) as [v [o [A [E [W [_ [R Cc]]]]]]].
  exists v. unfold ret_of in R. rewrite E in R. split; [exact R|]. split; [exact S|]. split; [exact exact_inv_inverts|]. split; [split; cbn; lia|]. split; [cbn; lia|].
  split. { intros f p i H1 H2 [Z _]. rewrite <- (A f p i H1 H2) in Z. exact (one_neq0 Z). }
  split; [reflexivity|]. split; [apply Cmod_1|]. unfold available_power. cbn [c_vgap c_rn c_vt c_zt supply].
  change (get2 [[Some (RtoC 0); Some (RtoC 0)]; [Some (RtoC 0); Some (RtoC 1)]] 1 1) with (Ok (Some (RtoC 1))). change (get2 [[RtoC 0; RtoC 0]; [RtoC 0; RtoC 1]] 1 1) with (Ok (RtoC 1)).
  cbn [bind]. cbv zeta. change (Model_Circuit.lower "W" =? "w")%string with true. cbv iota. destruct (Reqb_spec (Re (RtoC 1) * 10) 0) as [E1|_]; [cbn in E1; lra|]. eexists. split; [reflexivity|].
  rewrite Cmod_mult, !Cmod_R, !Rabs_pos_eq by lra. cbn [Re RtoC fst]. lra.
Qed.

(** ** C127 *)
(** Two runs, on a sweep and on a selection of its bias points, that report the same number of
    iterations give the same voltages, whatever their targets. *)
Theorem C127_same_count : forall J inv phi c c' resp num_b vj0 vj0' zj damp max_it stop max_it' stop' v v' it,
  reads_entries inv -> picks phi c c' -> simulates c num_b -> simulates c' num_b -> picks_guess phi (h_q c') vj0 vj0' ->
  (0 <= max_it)%Z -> (0 <= max_it')%Z ->
  r_ret (harmonic_balance J inv c resp num_b max_it stop vj0 damp "x" zj) = Ok (RetX v it true) ->
  r_ret (harmonic_balance J inv c' resp num_b max_it' stop' vj0' damp "x" zj) = Ok (RetX v' it true) ->
  everywhere (h_q c') (fun f p i => v' f p i = v f p (phi i)).
Proof. intros J inv phi c c' resp num_b vj0 vj0' zj damp max_it stop max_it' stop' v v' it H1 H2 H3 H4 H5. now apply (same_count J inv H1 phi c c' resp num_b H2 H3 H4 vj0 vj0' zj H5 damp). Qed.
Print Assumptions C127_same_count.
(** A run on the selection with that many iterations and a target that nothing meets gives the
    voltages of the sweep. *)
Theorem C127_selection : forall J inv phi c c' resp num_b vj0 vj0' zj damp max_it stop v it,
  reads_entries inv -> picks phi c c' -> simulates c num_b -> simulates c' num_b -> picks_guess phi (h_q c') vj0 vj0' ->
  (0 <= max_it)%Z ->
  r_ret (harmonic_balance J inv c resp num_b max_it stop vj0 damp "x" zj) = Ok (RetX v it true) ->
  exists v', r_ret (harmonic_balance J inv c' resp num_b it (-1) vj0' damp "x" zj) = Ok (RetX v' it false) /\
  everywhere (h_q c') (fun f p i => v' f p i = v f p (phi i)).
Proof. intros J inv phi c c' resp num_b vj0 vj0' zj damp max_it stop v it H1 H2 H3 H4 H5. now apply (same_corrections J inv H1 phi c c' resp num_b H2 H3 H4 vj0 vj0' zj H5 damp). Qed.
Print Assumptions C127_selection.
(** An inverse with these properties, and a run with one correction and three copies of its bias
    point. *)
Example C127_case : forall J, inverts trim_inv /\ reads_entries trim_inv /\
  picks (fun _ => 0%nat) (w1 (RtoC 1) (RtoC 1)) w3 /\ simulates (w1 (RtoC 1) (RtoC 1)) (NbInt 1) /\ simulates w3 (NbInt 1) /\
  picks_guess (fun _ => 0%nat) (h_q w3) (Some (fun _ _ _ => RtoC 5)) (Some (fun _ _ _ => RtoC 5)) /\
  (exists v, r_ret (harmonic_balance J trim_inv (w1 (RtoC 1) (RtoC 1)) no_resp (NbInt 1) 2 (/ 10 ^ 3) (Some (fun _ _ _ => RtoC 5)) 1 "x" (RtoC 1)) = Ok (RetX v 1 true)) /\
  exists v', r_ret (harmonic_balance J trim_inv w3 no_resp (NbInt 1) 1 (-1) (Some (fun _ _ _ => RtoC 5)) 1 "x" (RtoC 1)) = Ok (RetX v' 1 false) /\
    v' 1%nat 1%nat 2%nat = RtoC 1.
Proof.
  intros J. assert (S1 := w1_simulates (RtoC 1) (RtoC 1) one_neq0). assert (G : picks_guess (fun _ => 0%nat) (h_q w3) (Some (fun _ _ _ => RtoC 5)) (Some (fun _ _ _ => RtoC 5))) by (intros f p i _ _; reflexivity).
  destruct (one_correction_converged J trim_inv trim_inverts) as [v [R V]].
  destruct (C127_selection J trim_inv (fun _ => 0%nat) (w1 (RtoC 1) (RtoC 1)) w3 no_resp (NbInt 1) _ _ (RtoC 1) 1%R 2%Z (/ 10 ^ 3)%R v 1%Z trim_reads w3_picks S1 w3_simulates G ltac:(lia) R) as [v' [R' V']].
  split; [exact trim_inverts|]. split; [exact trim_reads|]. split; [exact w3_picks|]. split; [exact S1|]. split; [exact w3_simulates|]. split; [exact G|]. split; [eauto|].
  exists v'. split; [exact R'|]. rewrite V'; [exact V|split; cbn; lia|cbn; lia].
Qed.

(** ** C128 *)
(** Starting again from the converged voltages, with the circuit as the first call left it, ends
    at once with the same voltages. *)
Theorem C128_restart : forall J inv c resp num_b max_it stop vj0 damp zj v it max_it' stop' damp' zj',
  let call := harmonic_balance J inv c resp num_b max_it stop vj0 damp "x" zj in
  let call' := harmonic_balance J inv (r_cct call) resp num_b max_it' stop' (Some v) damp' "x" zj' in
  simulates c num_b -> (0 <= max_it)%Z -> (0 <= max_it')%Z -> (0 <= stop <= stop')%R -> inverts inv ->
  r_ret call = Ok (RetX v it true) -> everywhere (h_q c) (fun f p i => v f p i <> RtoC 0) ->
  (exists v', r_ret call' = Ok (RetX v' 0 (0 <? max_it')%Z) /\ agree (h_q c) v v') /\
  (forall f p, h_vt (r_cct call') f p = h_vt (r_cct call) f p).
Proof. exact restart. Qed.
Print Assumptions C128_restart.
Example C128_case : forall J, exists v,
  r_ret (harmonic_balance J exact_inv (w1 (RtoC 1) (RtoC 1)) no_resp (NbInt 1) 2 (/ 10 ^ 3) (Some (fun _ _ _ => RtoC 5)) 1 "x" (RtoC 1)) = Ok (RetX v 1 true) /\
  simulates (w1 (RtoC 1) (RtoC 1)) (NbInt 1) /\ inverts exact_inv /\
  everywhere (h_q (w1 (RtoC 1) (RtoC 1))) (fun f p i => v f p i <> RtoC 0).
Proof.
  intros J. destruct (one_correction_converged J exact_inv exact_inv_inverts) as [v [R V]]. exists v. split; [exact R|].
  split; [apply w1_simulates, one_neq0|]. split; [exact exact_inv_inverts|]. intros f p i S I. apply w1_signal in S. destruct S as [-> ->]. cbn in I.
  assert (i = 0%nat) by lia. subst i. rewrite V. apply one_neq0.
Qed.

(** ** C129 *)
(** With the mixing products selected in binary64, harmonic_balance and check_hb_error do the
    same as with exact selection, also if the frequencies lie on rounding boundaries. *)
Theorem C129_harmonic_balance : forall J inv c resp num_b max_it stop vj0 damp mode zj,
  (1 <= q_num_f (h_q c) <= 4)%nat -> moderate_size (h_q c) num_b -> separated (h_q c) ->
  harmonic_balance_f J inv c resp num_b max_it stop vj0 damp mode zj = harmonic_balance J inv c resp num_b max_it stop vj0 damp mode zj.
Proof. exact hb_same. Qed.
Print Assumptions C129_harmonic_balance.
Theorem C129_check : forall J v c resp num_b stop,
  (1 <= q_num_f (h_q c) <= 4)%nat -> moderate_size (h_q c) num_b -> separated (h_q c) ->
  check_hb_error_f J v c resp num_b stop = check_hb_error J v c resp num_b stop.
Proof. exact check_same. Qed.
Print Assumptions C129_check.
(** Tones at the binary64 numbers 0.30025, for which a request with the Python float fails
    (C122), and 0.37. *)
Definition tie2 : qcct := {| q_num_f := 2; q_num_p := 1; q_npts := 3; q_freq := fun f => match f with 1%nat => f0 | _ => rnd (37 / 100) end; q_vb := fun i => INR i |}.
Example C129_case : moderate_size tie2 (NbInt 15) /\ separated tie2.
Proof.
  assert (A : (Rabs (f0 - 30025 / 100000) <= / 1000000)%R).
  { rewrite f0_nearest. eapply Rle_trans; [apply (rnd_err _ 1); rewrite Rabs_pos_eq; lra|]. unfold u53. lra. }
  assert (B : (Rabs (rnd (37 / 100) - 37 / 100) <= / 1000000)%R) by (eapply Rle_trans; [apply (rnd_err _ 1); rewrite Rabs_pos_eq; lra|]; unfold u53; lra).
  apply Rabs_le_between in A, B. split.
  - split; [reflexivity|split; [reflexivity|]]. intros f Hf. cbn in Hf. assert (C2 : f = 1%nat \/ f = 2%nat) by lia. destruct C2 as [-> | ->]; cbn; rewrite Rabs_pos_eq; lra.
  - intros f p a [Hf Hp] Ha Hn. cbn [q_num_f q_num_p tie2] in *. assert (p = 1%nat) by lia. subst p. apply in_index_vectors in Ha. destruct Ha as [L F].
    destruct a as [|x [|y [|z a]]]; try discriminate. inversion F as [|? ? X F']; subst. inversion F' as [|? ? Y _]; subst. cbn in X, Y.
    assert (C1 : x = (-1)%Z \/ x = 0%Z \/ x = 1%Z) by lia. assert (C2 : y = (-1)%Z \/ y = 0%Z \/ y = 1%Z) by lia. assert (C3 : f = 1%nat \/ f = 2%nat) by lia.
    unfold freqs. cbn [q_num_f q_freq map seq dot tie2]. apply Rnot_lt_le. intros D. apply Rabs_lt_between in D. apply Hn. unfold harmonic_of. cbn [q_num_f tie2 map seq].
    destruct C3 as [-> | ->]; destruct C1 as [-> |[-> | ->]]; destruct C2 as [-> |[-> | ->]]; cbn [INR Nat.eqb Z.of_nat Pos.of_succ_nat] in *; try reflexivity; exfalso; lra.
Qed.
