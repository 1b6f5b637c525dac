(** Property C179: several tones without harmonics.  The simulated currents have no jumps along
    the bias sweep: a bound on their slope. *)
From Coq Require Import List ZArith Lia Bool Arith Reals Lra String.
From Coquelicot Require Import Complex.
From Verif Require Import Base Sums Round Bessel Model_QtCurrent Spec_QtCurrent Spec_QtApi Spec_Power Model_Circuit Model_HB Spec_HB Spec_HBConv
  Proof_QtCurrent Proof_QtCurrent2 Proof_QtSym Proof_QtApi Proof_QtApi2 Proof_HB3 Proof_QtWit Proof_HBWit Proof_HBWit2 Proof_HBWit4 Proof_HBConv3 Spec_LipMany Proof_LipMany Spec_TruncMany Spec_BiasLip Proof_RunCurrent Proof_Sweep Properties_Power Properties_BiasLip Properties_RunCurrent.
Import ListNotations.
Local Notation length := List.length.
Open Scope R_scope.

(** The current of a lone mixing product, for voltages that balance the circuit. *)
Theorem C179_solution : forall c resp num_b M L nu s w a r, args_ok (h_q c) num_b -> q_num_p (h_q c) = 1%nat -> separate (h_q c) -> 0 <= M -> 0 < nu -> (forall f, (1 <= f <= q_num_f (h_q c))%nat -> nu <= q_freq (h_q c) f) -> 4 * M * impedances c < nu ->
  (forall i x, (i < q_npts (h_q c))%nat -> shifted (q_vb (h_q c) i) (truncations num_b (q_num_f (h_q c))) (freqs (h_q c)) x -> Cmod (resp x) <= M) -> slope_at_most resp L ->
  solution besselJ c resp num_b s -> alone (h_q c) w a -> qtcurrent besselJ s (h_q c) resp (FList [w]) num_b None = Ok (QRows [r]) ->
  forall i j, (i < q_npts (h_q c))%nat -> (j < q_npts (h_q c))%nat -> (nu - 4 * M * impedances c) * Cmod (nth i r (RtoC 0) - nth j r (RtoC 0))%C <= 2 * L * nu * Rabs (q_vb (h_q c) i - q_vb (h_q c) j).
Proof. exact sweep_solution. Qed.
Print Assumptions C179_solution.

(** The same for the voltages of a converged run, up to the error that its target allows. *)
Theorem C179_run : forall c resp num_b M L nu inv max_it stop vj0 d zj v it w a r, q_num_p (h_q c) = 1%nat -> separate (h_q c) -> 0 <= M -> 0 < nu -> (forall f, (1 <= f <= q_num_f (h_q c))%nat -> nu <= q_freq (h_q c) f) -> 4 * M * impedances c < nu ->
  (forall i x, (i < q_npts (h_q c))%nat -> shifted (q_vb (h_q c) i) (truncations num_b (q_num_f (h_q c))) (freqs (h_q c)) x -> Cmod (resp x) <= M) -> slope_at_most resp L ->
  simulates c num_b -> inverts inv -> (0 <= max_it)%Z -> r_ret (harmonic_balance besselJ inv c resp num_b max_it stop vj0 d "x" zj) = Ok (RetX v it true) ->
  everywhere (h_q c) (fun f p i => ~ undefined besselJ (driven c) resp num_b v f p i) ->
  alone (h_q c) w a -> qtcurrent besselJ v (h_q c) resp (FList [w]) num_b None = Ok (QRows [r]) ->
  forall i j, (i < q_npts (h_q c))%nat -> (j < q_npts (h_q c))%nat -> (nu - 4 * M * impedances c) * Cmod (nth i r (RtoC 0) - nth j r (RtoC 0))%C <= 2 * L * nu * Rabs (q_vb (h_q c) i - q_vb (h_q c) j) + 4 * M * (stop * (total (h_q c) (fun f p => Cmod (v f p i)) + total (h_q c) (fun f p => Cmod (v f p j)))).
Proof. exact sweep_run. Qed.
Print Assumptions C179_run.

(** The DC current of a converged run. *)
Theorem C179_dc : forall c resp num_b M L nu inv max_it stop vj0 d zj v it a r, q_num_p (h_q c) = 1%nat -> separate (h_q c) -> 0 <= M -> 0 < nu -> (forall f, (1 <= f <= q_num_f (h_q c))%nat -> nu <= q_freq (h_q c) f) -> 4 * M * impedances c < nu ->
  (forall i x, (i < q_npts (h_q c))%nat -> shifted (q_vb (h_q c) i) (truncations num_b (q_num_f (h_q c))) (freqs (h_q c)) x -> Cmod (resp x) <= M) -> slope_at_most resp L ->
  simulates c num_b -> inverts inv -> (0 <= max_it)%Z -> r_ret (harmonic_balance besselJ inv c resp num_b max_it stop vj0 d "x" zj) = Ok (RetX v it true) ->
  everywhere (h_q c) (fun f p i => ~ undefined besselJ (driven c) resp num_b v f p i) ->
  alone (h_q c) 0 a -> qtcurrent besselJ v (h_q c) resp (FScalar 0) num_b None = Ok (QReal r) ->
  forall i j, (i < q_npts (h_q c))%nat -> (j < q_npts (h_q c))%nat -> (nu - 4 * M * impedances c) * Rabs (nth i r 0 - nth j r 0) <= 2 * L * nu * Rabs (q_vb (h_q c) i - q_vb (h_q c) j) + 4 * M * (stop * (total (h_q c) (fun f p => Cmod (v f p i)) + total (h_q c) (fun f p => Cmod (v f p j)))).
Proof. exact sweep_dc. Qed.
Print Assumptions C179_dc.

(** The circuit of [C175_case]: a run converges, and its DC currents at the first two bias
    points, a quarter apart, differ by at most 8/15 and what the target allows. *)
Example C179_case : exists N v m r,
  r_ret (harmonic_balance besselJ exact_inv bl_c bl_resp (NbTuple [3; 2]%nat) (Z.of_nat (S N)) (1 / 1000) None 1 "x" (RtoC (1 / 2))) = Ok (RetX v (Z.of_nat m) true) /\
  qtcurrent besselJ v bl_q bl_resp (FScalar 0) (NbTuple [3; 2]%nat) None = Ok (QReal r) /\
  15 / 8 * Rabs (nth 0 r 0 - nth 1 r 0) <= 1 + 4 * (1 / 1000 * (total bl_q (fun f p => Cmod (v f p 0%nat)) + total bl_q (fun f p => Cmod (v f p 1%nat)))).
Proof.
  assert (MZ : Cmod (RtoC (1 / 64)) = 1 / 64) by (rewrite Cmod_R, Rabs_pos_eq; lra).
  assert (NU : forall f, (1 <= f <= q_num_f bl_q)%nat -> 2 <= q_freq bl_q f) by (intros [|[|f]] F; cbn [bl_q q_freq]; lra).
  assert (SI : simulates bl_c (NbTuple [3; 2]%nat)) by exact (proj1 (proj2 (proj2 C175_case))).
  assert (HV : forall f, (1 <= f <= q_num_f (h_q bl_c))%nat -> 2 * 1 * Cmod (h_zt bl_c f 1%nat) < Cmod (source (h_vt bl_c f 1%nat))). { intros f F. cbn [bl_c h_vt h_zt]. rewrite MZ, source_big by apply big_1. rewrite Cmod_1. lra. }
  destruct (proj2 (proj2 (proj2 C175_case))) as [N HN]. destruct (HN (Z.of_nat (S N)) ltac:(lia)) as (v & m & R1).
  destruct (qt_dc_runs v bl_q bl_resp (NbTuple [3; 2]%nat) bl_args) as [r E]. exists N, v, m, r. split; [exact R1|]. split; [exact E|].
  assert (NN : (0 <= Z.of_nat (S N))%Z) by lia. assert (DF := driven_defined bl_c bl_resp (NbTuple [3; 2]%nat) 1 v bl_args eq_refl bl_separate (fun i x _ _ => bl_unit x) ltac:(lra) HV).
  assert (Z4 : 4 * 1 * impedances bl_c < 2) by (rewrite bl_imp; lra).
  pose proof (C179_dc bl_c bl_resp (NbTuple [3; 2]%nat) 1 1 2 exact_inv _ _ _ _ _ v _ _ r eq_refl bl_separate ltac:(lra) ltac:(lra) NU Z4 (fun i x _ _ => bl_unit x) bl_slope SI exact_inv_inverts NN R1 DF bl_alone_0 E 0%nat 1%nat ltac:(cbn; lia) ltac:(cbn; lia)) as H.
  rewrite bl_imp in H. change (h_q bl_c) with bl_q in H. set (t0 := total _ _) in *. set (t8 := total _ _) in *. cbn [bl_q q_vb] in H. replace (INR 0 / 4 - INR 1 / 4) with (- (1 / 4)) in H by (simpl INR; field). rewrite Rabs_Ropp, (Rabs_pos_eq (1 / 4)) in H by lra. lra.
Qed.
