(** Runs of the summaries of qmix/exp/exp_data.py. *)
From Coq Require Import List ZArith Bool Reals Lra Lia.
From Verif Require Import Base Float NumPy Model_QtCurrent Model_RespFn Model_IVData Model_ExpData Spec_RespFn Spec_IVData Spec_IFData Proof_Circuit Proof_NumPy Proof_CleanData Proof_IVData Proof_IFNoise Proof_ExpData.
Import ListNotations.
Open Scope R_scope.
Local Notation length := List.length.

Lemma quot_runs a b : b <> 0 -> quot a b = Ok (a / b).
Proof. intros H. unfold quot. destruct (Reqb_spec b 0); [contradiction|reflexivity]. Qed.
Theorem dc_summary_runs dc v i area vleak : length i = length v -> v <> [] -> dc_rn dc <> 0 -> area <> 0 -> dc_vgap dc <> 0 -> exists s, dc_summary dc v i area vleak = Ok s.
Proof.
  intros L N H1 H2 H3. unfold dc_summary. rewrite quot_runs by assumption. cbn [bind].
  rewrite quot_runs. 2:{ intros E. apply Rmult_integral in E. destruct E as [E|E]. { apply Rmult_integral in E. tauto. } revert E. apply Rgt_not_eq, Rlt_gt. apply Rdiv_lt_0_compat; [lra|apply pow_lt; lra]. }
  cbn [bind]. rewrite quot_runs by assumption. cbn [bind]. unfold np_interp. rewrite L, Nat.eqb_refl. destruct v as [|a v]; [congruence|]. cbn [length Nat.eqb negb guard bind map]. eexists; reflexivity.
Qed.
Lemma best_bias_case : exists s, if_summary [0; 1; 2] [0; 2; 4] [0; 1] [FV 50; FV 40] [FV 1; FV 2] 1 3 = Ok s.
Proof.
  unfold if_summary. change (pyget [FV 50; FV 40] (Z.of_nat 1)) with (Ok (FV 40)). change (pyget [FV 1; FV 2] (Z.of_nat 1)) with (Ok (FV 2)). cbn [bind]. destruct (Rltb_spec 0 2) as [_|?]; [|lra]. cbn [guard bind].
  change (pyget [0; 1] (Z.of_nat 1)) with (@Ok R 1). cbn [bind].
  destruct (argmin_reals (map (fun a => Rabs (a - 1)) [0; 1; 2])) as [k [Ek S]]; [discriminate|]. rewrite map_map in Ek. rewrite Ek. cbn [bind].
  assert (k = 1%nat) as ->.
  { destruct S as [S1 S2]. cbn [map length] in S1. specialize (S2 1%nat). cbn [map length nth] in S2. specialize (S2 ltac:(lia)). replace (1 - 1) with 0 in S2 by ring. rewrite Rabs_R0 in S2.
    destruct k as [|[|[|k]]]; [exfalso| reflexivity |exfalso|lia]; cbn [nth] in S2. { rewrite Rabs_left in S2; lra. } { rewrite Rabs_pos_eq in S2; lra. } }
  change (segment [0; 1; 2] 1 (1 + 10)) with (map fst [(1, 2); (2, 4)]). change (segment [0; 2; 4] 1 (1 + 10)) with (map snd [(1, 2); (2, 4)]).
  rewrite (polyfit_line [(1, 2); (2, 4)] 2 0). { cbn [bind fst]. rewrite quot_runs by lra. cbn [bind]. eexists; reflexivity. }
  { exists (1, 2), (2, 4). cbn [In fst]. repeat split; auto; lra. }
  { intros p [<-|[<-|[]]]; cbn [fst snd]; ring. }
Qed.
