(** Property C177: several tones without harmonics.  The whole error of the tunnelling currents
    of a simulation, from the target and from the truncation, in terms of its own results. *)
From Coq Require Import List ZArith Lia Bool Arith Reals Lra String.
From Coquelicot Require Import Complex.
From Verif Require Import Base Sums Round Bessel Model_QtCurrent Spec_QtCurrent Spec_QtApi Spec_Power Model_Circuit Model_HB Spec_HB Spec_HBConv
  Proof_QtCurrent Proof_QtCurrent2 Proof_QtSym Proof_QtApi Proof_QtApi2 Proof_HB3 Proof_QtWit Proof_HBWit Proof_HBWit2 Proof_HBWit4 Proof_HBConv3 Spec_LipMany Proof_LipMany Spec_TruncMany Proof_RunCurrent Proof_RunError Properties_Power Properties_BiasLip Properties_RunCurrent.
Import ListNotations.
Local Notation length := List.length.
Open Scope R_scope.

(** The current of a lone mixing product for the voltages [v] of a converged run, against the
    one for voltages [s] that balance the circuit exactly, both with a larger truncation. *)
Theorem C177_ac : forall c resp num_b num_b' M nu inv max_it stop vj0 d zj v it s w a r r', q_num_p (h_q c) = 1%nat -> separate (h_q c) -> 0 <= M -> 0 < nu -> (forall f, (1 <= f <= q_num_f (h_q c))%nat -> nu <= q_freq (h_q c) f) ->
  4 * M * impedances c < nu -> args_ok (h_q c) num_b' -> no_larger (h_q c) num_b num_b' ->
  (forall i x, (i < q_npts (h_q c))%nat -> shifted (q_vb (h_q c) i) (truncations num_b' (q_num_f (h_q c))) (freqs (h_q c)) x -> Cmod (resp x) <= M) ->
  simulates c num_b -> inverts inv -> (0 <= max_it)%Z -> r_ret (harmonic_balance besselJ inv c resp num_b max_it stop vj0 d "x" zj) = Ok (RetX v it true) ->
  everywhere (h_q c) (fun f p i => ~ undefined besselJ (driven c) resp num_b v f p i) -> solution besselJ (driven c) resp num_b' s ->
  alone (h_q c) w a ->
  qtcurrent besselJ v (h_q c) resp (FList [w]) num_b None = Ok (QRows [r]) -> qtcurrent besselJ s (h_q c) resp (FList [w]) num_b' None = Ok (QRows [r']) ->
  forall i, (i < q_npts (h_q c))%nat -> (nu - 4 * M * impedances c) * Cmod (nth i r (RtoC 0) - nth i r' (RtoC 0))%C <= 4 * M * (stop * total (h_q c) (fun f p => Cmod (v f p i)) + nu * missed (h_q c) num_b v i).
Proof. exact ac_error. Qed.
Print Assumptions C177_ac.

(** The same for the DC current. *)
Theorem C177_dc : forall c resp num_b num_b' M nu inv max_it stop vj0 d zj v it s a r r', q_num_p (h_q c) = 1%nat -> separate (h_q c) -> 0 <= M -> 0 < nu -> (forall f, (1 <= f <= q_num_f (h_q c))%nat -> nu <= q_freq (h_q c) f) ->
  4 * M * impedances c < nu -> args_ok (h_q c) num_b' -> no_larger (h_q c) num_b num_b' ->
  (forall i x, (i < q_npts (h_q c))%nat -> shifted (q_vb (h_q c) i) (truncations num_b' (q_num_f (h_q c))) (freqs (h_q c)) x -> Cmod (resp x) <= M) ->
  simulates c num_b -> inverts inv -> (0 <= max_it)%Z -> r_ret (harmonic_balance besselJ inv c resp num_b max_it stop vj0 d "x" zj) = Ok (RetX v it true) ->
  everywhere (h_q c) (fun f p i => ~ undefined besselJ (driven c) resp num_b v f p i) -> solution besselJ (driven c) resp num_b' s ->
  alone (h_q c) 0 a ->
  qtcurrent besselJ v (h_q c) resp (FScalar 0) num_b None = Ok (QReal r) -> qtcurrent besselJ s (h_q c) resp (FScalar 0) num_b' None = Ok (QReal r') ->
  forall i, (i < q_npts (h_q c))%nat -> (nu - 4 * M * impedances c) * Rabs (nth i r 0 - nth i r' 0) <= 4 * M * (stop * total (h_q c) (fun f p => Cmod (v f p i)) + nu * missed (h_q c) num_b v i).
Proof. exact dc_error. Qed.
Print Assumptions C177_dc.

(** The circuit of [C175_case]: a run with three and two photons, against nine and nine. *)
Example C177_case : exists N v m s r r',
  r_ret (harmonic_balance besselJ exact_inv bl_c bl_resp (NbTuple [3; 2]%nat) (Z.of_nat (S N)) (1 / 1000) None 1 "x" (RtoC (1 / 2))) = Ok (RetX v (Z.of_nat m) true) /\
  solution besselJ (driven bl_c) bl_resp (NbInt 9) s /\
  qtcurrent besselJ v bl_q bl_resp (FScalar 0) (NbTuple [3; 2]%nat) None = Ok (QReal r) /\ qtcurrent besselJ s bl_q bl_resp (FScalar 0) (NbInt 9) None = Ok (QReal r') /\
  15 / 8 * Rabs (nth 4 r 0 - nth 4 r' 0) <= 4 * (1 / 1000 * total bl_q (fun f p => Cmod (v f p 4%nat)) + 2 * missed bl_q (NbTuple [3; 2]%nat) v 4).
Proof.
  assert (MZ : Cmod (RtoC (1 / 64)) = 1 / 64) by (rewrite Cmod_R, Rabs_pos_eq; lra).
  assert (NU : forall f, (1 <= f <= q_num_f bl_q)%nat -> 2 <= q_freq bl_q f) by (intros [|[|f]] F; cbn [bl_q q_freq]; lra).
  assert (SI : simulates bl_c (NbTuple [3; 2]%nat)) by exact (proj1 (proj2 (proj2 C175_case))).
  assert (A9 : args_ok bl_q (NbInt 9)) by (unfold args_ok; cbn [bl_q q_num_f q_num_p q_freq length]; repeat split; try lia; intros [|[|f]] _; lra).
  assert (HV : forall f, (1 <= f <= q_num_f (h_q bl_c))%nat -> 2 * 1 * Cmod (h_zt bl_c f 1%nat) < Cmod (source (h_vt bl_c f 1%nat))). { intros f F. cbn [bl_c h_vt h_zt]. rewrite MZ, source_big by apply big_1. rewrite Cmod_1. lra. }
  destruct (proj2 (proj2 (proj2 C175_case))) as [N HN]. destruct (HN (Z.of_nat (S N)) ltac:(lia)) as (v & m & R1).
  destruct (solution_exists besselJ (driven bl_c) bl_resp (NbInt 9) (4 * 1 * impedances bl_c / 2)) as [s SOL]; [rewrite bl_imp; lra|exact (many_follows bl_c bl_resp (NbInt 9) 1 A9 eq_refl bl_separate (fun i x _ _ => bl_unit x) ltac:(lra) 2 ltac:(lra) NU)|].
  destruct (qt_dc_runs v bl_q bl_resp (NbTuple [3; 2]%nat) bl_args) as [r E]. destruct (qt_dc_runs s bl_q bl_resp (NbInt 9) A9) as [r' E'].
  exists N, v, m, s, r, r'. split; [exact R1|]. split; [exact SOL|]. split; [exact E|]. split; [exact E'|].
  assert (NN : (0 <= Z.of_nat (S N))%Z) by lia. assert (DF := driven_defined bl_c bl_resp (NbTuple [3; 2]%nat) 1 v bl_args eq_refl bl_separate (fun i x _ _ => bl_unit x) ltac:(lra) HV).
  assert (Z4 : 4 * 1 * impedances bl_c < 2) by (rewrite bl_imp; lra).
  assert (W : no_larger bl_q (NbTuple [3; 2]%nat) (NbInt 9)) by (intros f F; cbn [bl_q q_num_f] in *; destruct f as [|[|f]]; cbn; lia).
  pose proof (C177_dc bl_c bl_resp (NbTuple [3; 2]%nat) (NbInt 9) 1 2 exact_inv _ _ _ _ _ v _ s _ r r' eq_refl bl_separate ltac:(lra) ltac:(lra) NU Z4 A9 W (fun i x _ _ => bl_unit x) SI exact_inv_inverts NN R1 DF SOL bl_alone_0 E E' 4%nat ltac:(cbn; lia)) as H.
  rewrite bl_imp in H. cbn [bl_c h_q] in H. lra.
Qed.
