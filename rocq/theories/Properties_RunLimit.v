(** Property C178: several tones without harmonics.  The currents of simulations converge as
    the truncation grows and the target shrinks, whatever the other settings of the runs. *)
From Coq Require Import List ZArith Lia Bool Arith Reals Lra String.
From Coquelicot Require Import Complex.
From Verif Require Import Base Sums Round Bessel Model_QtCurrent Spec_QtCurrent Spec_QtApi Spec_Power Model_Circuit Model_HB Spec_HB Spec_HBConv
  Proof_QtCurrent Proof_QtCurrent2 Proof_QtSym Proof_QtApi Proof_QtApi2 Proof_HB3 Proof_QtWit Proof_HBWit Proof_HBWit2 Proof_HBWit4 Proof_HBConv3 Spec_LipMany Proof_LipMany Spec_TruncMany Proof_RunCurrent Proof_RunLimit Properties_BiasLip.
Import ListNotations.
Local Notation length := List.length.
Open Scope R_scope.

(** For each bias point there is one value that the current of a lone mixing product comes
    near: as near as wanted for all converged runs with enough photons and a small enough
    target. *)
Theorem C178_simulations : forall c resp M w a, (forall b, args_ok (h_q c) (NbInt b)) -> q_num_p (h_q c) = 1%nat -> separate (h_q c) -> 0 <= M -> (forall x, Cmod (resp x) <= M) ->
  (forall f, (1 <= f <= q_num_f (h_q c))%nat -> 4 * M * impedances c < q_freq (h_q c) f) -> alone (h_q c) w a ->
  exists I : nat -> C, forall eps, 0 < eps -> exists N delta, 0 < delta /\
    forall b stop inv max_it vj0 d zj v it, (N <= b)%nat -> stop <= delta -> simulates c (NbInt b) -> inverts inv -> (0 <= max_it)%Z ->
      r_ret (harmonic_balance besselJ inv c resp (NbInt b) max_it stop vj0 d "x" zj) = Ok (RetX v it true) ->
      everywhere (h_q c) (fun f p i => ~ undefined besselJ (driven c) resp (NbInt b) v f p i) ->
      exists r, qtcurrent besselJ v (h_q c) resp (FList [w]) (NbInt b) None = Ok (QRows [r]) /\ forall i, (i < q_npts (h_q c))%nat -> Cmod (nth i r (RtoC 0) - I i)%C <= eps.
Proof. exact simulations_converge. Qed.
Print Assumptions C178_simulations.

Lemma bl_int b : args_ok bl_q (NbInt b).
Proof. unfold args_ok. cbn [bl_q q_num_f q_num_p q_freq length]. repeat split; try lia. intros [|[|f]] _; lra. Qed.
(** The circuit of [C175_case]: there are runs that come as near to the value as wanted. *)
Example C178_case : exists I : nat -> C, forall eps, 0 < eps -> exists b stop max_it v m r,
  r_ret (harmonic_balance besselJ exact_inv bl_c bl_resp (NbInt b) max_it stop None 1 "x" (RtoC (1 / 2))) = Ok (RetX v (Z.of_nat m) true) /\
  qtcurrent besselJ v bl_q bl_resp (FList [2]) (NbInt b) None = Ok (QRows [r]) /\ forall i, (i < 9)%nat -> Cmod (nth i r (RtoC 0) - I i)%C <= eps.
Proof.
  assert (MZ : Cmod (RtoC (1 / 64)) = 1 / 64) by (rewrite Cmod_R, Rabs_pos_eq; lra).
  assert (HV : forall f, (1 <= f <= q_num_f (h_q bl_c))%nat -> 2 * 1 * Cmod (h_zt bl_c f 1%nat) < Cmod (source (h_vt bl_c f 1%nat))). { intros f F. cbn [bl_c h_vt h_zt]. rewrite MZ, source_big by apply big_1. rewrite Cmod_1. lra. }
  assert (SI : forall b, simulates bl_c (NbInt b)). { intros b. split; [exact (bl_int b)|]. split; [cbn; lia|]. split; [reflexivity|]. exists 1%nat, 1%nat. cbn [bl_c h_q h_zt bl_q q_num_f q_num_p]. repeat split; try lia. intros E. apply (f_equal fst) in E. cbn in E. lra. }
  destruct (C178_simulations bl_c bl_resp 1 2 [1; 0]%Z bl_int eq_refl bl_separate ltac:(lra) bl_unit) as [I HI]; [|exact bl_alone_1|].
  { intros f F. rewrite bl_imp. cbn [bl_c h_q bl_q q_freq]. destruct f as [|[|f]]; lra. }
  exists I. intros eps E0. destruct (HI eps E0) as (N & delta & D0 & HN).
  destruct (many_converges bl_c bl_resp (NbInt N) 1 (bl_int N) eq_refl bl_separate (fun i x _ _ => bl_unit x) ltac:(lra) (SI N)) as [s [_ [_ HC]]]; [|exact HV|].
  { intros f F. change (zsum_c bl_c) with (impedances bl_c). rewrite bl_imp. cbn [bl_c h_q bl_q q_freq]. destruct f as [|[|f]]; lra. }
  destruct (HC exact_inv 1 None (RtoC (1 / 2)) delta exact_inv_inverts) as [K H]; try lra.
  { right. intros f p _. cbn [bl_c h_zt]. rewrite <- RtoC_plus. intros E. apply (f_equal fst) in E. cbn [fst RtoC] in E. lra. }
  destruct (H (Z.of_nat (S K)) ltac:(lia)) as (v & m & R1 & _).
  assert (NN : (0 <= Z.of_nat (S K))%Z) by lia. assert (DF := driven_defined bl_c bl_resp (NbInt N) 1 v (bl_int N) eq_refl bl_separate (fun i x _ _ => bl_unit x) ltac:(lra) HV).
  destruct (HN N delta exact_inv _ _ _ _ v _ (le_n N) (Rle_refl delta) (SI N) exact_inv_inverts NN R1 DF) as (r & E & B).
  exists N, delta, (Z.of_nat (S K)), v, m, r. split; [exact R1|]. split; [exact E|]. exact B.
Qed.
