(** Cases for the messages of harmonic_balance. *)
From Coq Require Import List ZArith Lia Bool Arith Reals Lra String.
From Coquelicot Require Import Complex.
From Verif Require Import Base Sums Round Bessel Model_QtCurrent Spec_QtCurrent Spec_QtApi Model_Circuit Model_HB Model_Misc Model_Print Model_HBPrint Spec_HB Spec_HBPrint
  Proof_QtCurrent Proof_QtApi2 Proof_HB Proof_HB3 Proof_HB4 Proof_HB5 Proof_HBWit Proof_HBWit2 Proof_HBPrint Proof_HBPrint2.
Import ListNotations.
Local Notation length := List.length.
Open Scope list_scope.
Open Scope C_scope.

Lemma nan_swallowed_printed inv ct st : exists c resp num_b g v it,
  simulates c num_b /\
  let call := harmonic_balance_p besselJ inv true ct st c resp num_b 10 (/ 10 ^ 3) (Some g) 1 "x" (RtoC 1) in
  r_ret (snd call) = Ok (RetX v it true) /\ In TargetMet (fst call) /\ missed besselJ (r_cct (snd call)) resp num_b (/ 10 ^ 3) v.
Proof.
  destruct (nan_swallowed inv) as [c [resp [num_b [g [v [it [S0 [R [_ [Sg [Hi [V E]]]]]]]]]]]]. exists c, resp, num_b, g, v, it. split; [exact S0|]. cbv zeta.
  rewrite <- (hb_erase _ _ true ct st) in R, E. split; [exact R|]. split; [refine (proj1 (hb_done _ _ _ _ _ _ _ _ _ _ _ _ _ _ S0 _ R)); lia|].
  assert (HC : h_q (r_cct (snd (harmonic_balance_p besselJ inv true ct st c resp num_b 10 (/ 10 ^ 3) (Some g) 1 "x" (RtoC 1)))) = h_q c).
  { destruct S0 as [_ [_ [_ Hz]]]. rewrite hb_erase in *. apply hb_ok in R; [|exact Hz]. now rewrite (proj1 R). }
  exists 1%nat, 1%nat, 1%nat. rewrite HC. split; [exact Sg|]. split; [exact Hi|]. unfold undefined. rewrite V, E. split.
  - intros [U _]. apply RtoC_inj in U. lra.
  - rewrite !Cmod_R. rewrite (Rabs_left (-2)), (Rabs_pos_eq 3) by lra. lra.
Qed.

(** Guess 5, source 1, no current, no correction allowed. *)
Lemma missed_call J inv verbose ct st : let call := harmonic_balance_p J inv verbose ct st (w1 (RtoC 1) (RtoC 1)) no_resp (NbInt 1) 0 (/ 10 ^ 3) (Some (fun _ _ _ => RtoC 5)) 1 "x" (RtoC 1) in
  (exists v, r_ret (snd call) = Ok (RetX v 0 false)) /\ In TargetMissed (fst call).
Proof.
  set (c := w1 (RtoC 1) (RtoC 1)). set (g := (fun _ _ _ => RtoC 5) : arr3). cbv zeta.
  assert (Hs : simulates c (NbInt 1)) by (apply w1_simulates, one_neq0). pose proof Hs as [Ha [Hp [Hw Hz]]].
  destruct (matrix_built (h_q c) no_resp (NbInt 1) Ha) as [rm ER].
  destruct (qt_for_hb J (h_q c) no_resp (NbInt 1) rm (flat3 (q_num_p (h_q c)) g) Ha ER) as [ij [E _]].
  set (w := flat3 (q_num_p (h_q c)) g) in *.
  set (rel := rel_max (q_num_f (h_q c) * q_num_p (h_q c)) (q_npts (h_q c)) (flat2 (q_num_p (h_q c)) (clamp_vt (h_vt c))) (flat2 (q_num_p (h_q c)) (h_zt c)) ij w).
  assert (X1 : xle_r rel (/ 10 ^ 3) = false).
  { destruct (xle_r rel (/ 10 ^ 3)) eqn:L; [|reflexivity]. exfalso.
    destruct (rel_max_le J c no_resp (NbInt 1) rm Ha ER w ij (/ 10 ^ 3) Hp E L) as [T _].
    destruct (T 0%nat) as [_ T']; [simpl; lia|]. change (q_num_f (h_q c)) with 1%nat in T'. change (q_num_p (h_q c)) with 1%nat in T'. unfold c in T'. rewrite w1_residual, (source_big _ big_1) in T'.
    change (unflat 1 w 1%nat 1%nat 0%nat) with (RtoC 5) in T'.
    rewrite <- RtoC_minus, !Cmod_R in T'. rewrite (Rabs_pos_eq 5), (Rabs_left (1 - 5)) in T' by lra. lra. }
  assert (X2 : xgt_r rel (/ 10 ^ 3) = true).
  { destruct (xgt_r rel (/ 10 ^ 3)) eqn:L; [reflexivity|]. exfalso. pose proof (x_trichotomy _ _ X1 L) as N.
    apply (rel_max_nan J c no_resp (NbInt 1) rm Ha ER w ij Hp E) in N. destruct N as [i [_ [U _]]]. 
    change (RtoC 5 = RtoC 0) in U. apply RtoC_inj in U. lra. }
  assert (Run : hb_loop J inv c no_resp (NbInt 1) rm 0 (/ 10 ^ 3) 1 g = (w, Ok {| l_iter := 0; l_mask := Some (finished_points (q_num_f (h_q c) * q_num_p (h_q c)) (/ 10 ^ 3)
      (residual (flat2 (q_num_p (h_q c)) (clamp_vt (h_vt c))) (flat2 (q_num_p (h_q c)) (h_zt c)) ij w) w); l_why := HitLimit |})).
  { unfold hb_loop, run_newton. rewrite zrange_cons by lia. cbn [newton]. fold w. rewrite E. fold (rel_max (q_num_f (h_q c) * q_num_p (h_q c)) (q_npts (h_q c)) (flat2 (q_num_p (h_q c)) (clamp_vt (h_vt c))) (flat2 (q_num_p (h_q c)) (h_zt c)) ij w).
    fold rel. rewrite X1, X2. reflexivity. }
  destruct (hb_start J inv c no_resp (NbInt 1) 0 (/ 10 ^ 3) g 1 "x" (RtoC 1) rm _ _ Hz Hw ER Run) as [S1 _].
  unfold ret_of in S1. cbn in S1. rewrite <- (hb_erase _ _ verbose ct st) in S1. split; [eauto|].
  assert (Z0 : (0 <= 0)%Z) by lia. destruct (hb_marks _ _ _ _ _ _ _ _ _ _ _ _ _ _ _ _ Hz Z0 S1) as [g' [rm' [w' [o [Hg [ER' [HR [Ev [Ei [_ [M1 _]]]]]]]]]]].
  apply M1. apply run_ended in HR; [|lia]. destruct HR as [n [Ms He]]. destruct (l_why o) eqn:EW; [exfalso| reflexivity|exfalso].
  - destruct He as [ij' [mask [E1 [E2 [E3 [E4 _]]]]]].
    destruct (rel_max_le J c no_resp (NbInt 1) rm' Ha ER' w' ij' (/ 10 ^ 3) Hp E3 E4) as [T _]. rewrite <- Ev in T.
    destruct (T 0%nat) as [_ T']; [simpl; lia|]. change (q_num_f (h_q c)) with 1%nat in T'. change (q_num_p (h_q c)) with 1%nat in T'. unfold c in T'. rewrite w1_residual, (source_big _ big_1) in T'.
    change (unflat 1 w 1%nat 1%nat 0%nat) with (RtoC 5) in T'.
    rewrite <- RtoC_minus, !Cmod_R in T'. rewrite (Rabs_pos_eq 5), (Rabs_left (1 - 5)) in T' by lra. lra.
  - destruct He as [E1 E2]. destruct n as [|n]; [lia|]. destruct E2 as [E2 [u [ij' [mask [W1 [W2 [W3 [W4 [W5 W6]]]]]]]]]. assert (n = 0%nat) by lia. subst n.
    apply (rel_max_nan J c no_resp (NbInt 1) rm' Ha ER' u ij' Hp W3) in W4. destruct W4 as [i [Hi [U _]]]. 
    inversion W1; subst. rewrite unflat_flat in U by (cbn; lia). pose proof (Hg 1%nat 1%nat i ltac:(split; cbn; lia) Hi) as G. change (g' 1%nat 1%nat i = RtoC 0) in U. rewrite <- G in U.
    change (RtoC 5 = RtoC 0) in U. apply RtoC_inj in U. lra.
Qed.
