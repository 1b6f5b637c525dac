(** Property C156: what harmonic_balance and check_hb_error print.  Vocabulary in Spec_HB.v,
    Spec_HBPrint.v and Spec_HBText.v.  [harmonic_balance_p] and [check_hb_error_p] give the messages
    and the result; the durations measured are the parameters ct and st. *)
From Coq Require Import List ZArith Lia Bool Arith Reals Lra String.
From Coquelicot Require Import Complex.
From Verif Require Import Base Sums Round Bessel Model_QtCurrent Spec_QtCurrent Spec_QtApi Model_Circuit Model_HB Model_Misc Model_Print
  Proof_HBWit2 Proof_HB6 Proof_HBWit Proof_HBWit5 Proof_HBPrint Proof_HBPrint2 Proof_HBPrint3 Proof_HBText Model_HBPrint Spec_HB Spec_HBPrint Spec_HBText.
Import ListNotations.
Local Notation length := List.length.
Open Scope list_scope.
Open Scope C_scope.

(** Printing changes no result, and nor does [verbose]. *)
Theorem C156_same_result : forall J inv verbose ct st c resp num_b max_it stop vj0 damp mode zj,
  snd (harmonic_balance_p J inv verbose ct st c resp num_b max_it stop vj0 damp mode zj) = harmonic_balance J inv c resp num_b max_it stop vj0 damp mode zj.
Proof. exact hb_erase. Qed.
Print Assumptions C156_same_result.

(** With verbose=False nothing is printed but the warning. *)
Theorem C156_quiet : forall J inv ct st c resp num_b max_it stop vj0 damp mode zj,
  let out := fst (harmonic_balance_p J inv false ct st c resp num_b max_it stop vj0 damp mode zj) in out = [] \/ out = [TargetMissed].
Proof. exact hb_quiet. Qed.
Print Assumptions C156_quiet.

(** The warning, whether verbose or not: if it is printed, the limit is reached, the flag is False
    and the target is missed. *)
Theorem C156_warning : forall J inv verbose ct st c resp num_b max_it stop vj0 damp zj v it flag,
  let call := harmonic_balance_p J inv verbose ct st c resp num_b max_it stop vj0 damp "x" zj in
  simulates c num_b -> (0 <= max_it)%Z -> r_ret (snd call) = Ok (RetX v it flag) -> In TargetMissed (fst call) ->
  it = max_it /\ flag = false /\ missed J (r_cct (snd call)) resp num_b stop v.
Proof. exact hb_warning. Qed.
Print Assumptions C156_warning.
(** If it is not printed, the target is met or some error is undefined (see C156_refuted). *)
Theorem C156_no_warning_partial : forall J inv verbose ct st c resp num_b max_it stop vj0 damp zj v it flag,
  let call := harmonic_balance_p J inv verbose ct st c resp num_b max_it stop vj0 damp "x" zj in
  simulates c num_b -> (0 <= max_it)%Z -> inverts inv -> r_ret (snd call) = Ok (RetX v it flag) -> ~ In TargetMissed (fst call) ->
  (everywhere (h_q c) (fun f p i => ~ undefined J (r_cct (snd call)) resp num_b v f p i) -> balanced J (r_cct (snd call)) resp num_b stop v) \/
  it = max_it /\ exists u, undefined_last J (r_cct (snd call)) resp num_b u /\ corrected J (r_cct (snd call)) resp num_b damp u v.
Proof. exact hb_no_warning. Qed.
Print Assumptions C156_no_warning_partial.

(** All that a verbose run prints: the size of the problem, the estimated time, for every iteration
    the errors of the signals and the progress of the correction, the verdict, the time used. *)
Theorem C156_transcript : forall J inv ct st c resp num_b max_it stop vj0 damp zj v it flag,
  let call := harmonic_balance_p J inv true ct st c resp num_b max_it stop vj0 damp "x" zj in
  simulates c num_b -> (0 <= max_it)%Z -> inverts inv -> r_ret (snd call) = Ok (RetX v it flag) ->
  exists v0 lines, agree (h_q c) (start c vj0 zj) v0 /\ transcript J (r_cct (snd call)) resp num_b stop damp max_it 0 v0 lines v it /\
    let n := (q_num_f (h_q c) * q_num_p (h_q c))%nat in let calls := (2 * n + 1)%nat in
    fst call = [Running; Tones (q_num_f (h_q c)) (q_num_p (h_q c)); Calls calls; MaxIt max_it;
                EstimatedTime; CallTime ct; IterationTime (ct * INR calls); MaxTime (ct * INR calls * IZR max_it)] ++
               lines ++ SimTime st :: (if (1 <=? it)%Z then [Iterations it; TimePerIteration (st / IZR it)] else []).
Proof. exact hb_transcript. Qed.
Print Assumptions C156_transcript.

(** A converged run says so. *)
Theorem C156_done : forall J inv ct st c resp num_b max_it stop vj0 damp zj v it,
  let call := harmonic_balance_p J inv true ct st c resp num_b max_it stop vj0 damp "x" zj in
  simulates c num_b -> (0 <= max_it)%Z -> r_ret (snd call) = Ok (RetX v it true) -> In TargetMet (fst call) /\ ~ In TargetMissed (fst call).
Proof. exact hb_done. Qed.
Print Assumptions C156_done.

(** "Done: Minimum error target was achieved." can be printed although it was not. *)
Theorem C156_refuted : forall inv ct st, exists c resp num_b g v it,
  simulates c num_b /\
  let call := harmonic_balance_p besselJ inv true ct st c resp num_b 10 (/ 10 ^ 3) (Some g) 1 "x" (RtoC 1) in
  r_ret (snd call) = Ok (RetX v it true) /\ In TargetMet (fst call) /\ missed besselJ (r_cct (snd call)) resp num_b (/ 10 ^ 3) v.
Proof. exact nan_swallowed_printed. Qed.
Print Assumptions C156_refuted.

(** check_hb_error: the result is as without messages; a line for each signal until the first that
    fails. *)
Theorem C156_check_same : forall J v c resp num_b s, snd (check_hb_error_p J v c resp num_b s) = check_hb_error J v c resp num_b s.
Proof. exact check_erase. Qed.
Print Assumptions C156_check_same.
Theorem C156_check : forall J v c resp num_b s, args_ok (h_q c) num_b -> (1 <= q_npts (h_q c))%nat ->
  let call := check_hb_error_p J v c resp num_b s in
  exists out ok, checks J c resp num_b s v (list_prod (seq 1 (q_num_f (h_q c))) (seq 1 (q_num_p (h_q c)))) out ok /\
    fst call = Checking :: out ++ (if ok then [EmptyLine] else []) /\ snd call = if ok then Ok tt else Err AssertionError.
Proof. exact check_printed. Qed.
Print Assumptions C156_check.

(** The text of every message (of the progress bar see C86) says what the message means. *)
Theorem C156_text : forall show m, says m (text show m).
Proof. exact text_says. Qed.
Print Assumptions C156_text.

(** A run with one correction that meets the hypotheses, and one that ends with the warning. *)
Example C156_case : forall J ct st, simulates (w1 (RtoC 1) (RtoC 1)) (NbInt 1) /\ inverts exact_inv /\ exists v,
  r_ret (snd (harmonic_balance_p J exact_inv true ct st (w1 (RtoC 1) (RtoC 1)) no_resp (NbInt 1) 2 (/ 10 ^ 3) (Some (fun _ _ _ => RtoC 5)) 1 "x" (RtoC 1))) = Ok (RetX v 1 true).
Proof.
  intros J ct st. split; [apply w1_simulates, one_neq0|]. split; [exact exact_inv_inverts|].
  destruct (one_correction_converged J exact_inv exact_inv_inverts) as [v [R V]]. exists v. now rewrite hb_erase.
Qed.
Example C156_warning_case : forall J inv verbose ct st,
  let call := harmonic_balance_p J inv verbose ct st (w1 (RtoC 1) (RtoC 1)) no_resp (NbInt 1) 0 (/ 10 ^ 3) (Some (fun _ _ _ => RtoC 5)) 1 "x" (RtoC 1) in
  (exists v, r_ret (snd call) = Ok (RetX v 0 false)) /\ In TargetMissed (fst call).
Proof. exact missed_call. Qed.
(** The middle of three errors; one of them infinite. *)
Example C156_median_case : median_of [Fin 3; Inf; Fin 1] (Fin 3) /\ largest_of [Fin 3; Inf; Fin 1] Inf /\ shown Inf (Fin 99999.999).
Proof.
  split; [|split; [|reflexivity]]; right; (split; [cbn; intuition discriminate|]).
  - exists [Fin 1; Fin 3; Inf]. split.
    + apply Permutation.perm_trans with [Fin 3; Fin 1; Inf]; [apply Permutation.perm_skip, Permutation.perm_swap|apply Permutation.perm_swap].
    + split; [repeat constructor; cbn; lra|]. cbn. f_equal. field.
  - split; [cbn; tauto|]. intros e H. cbn in H. intuition subst; cbn; tauto.
Qed.
