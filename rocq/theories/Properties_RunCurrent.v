(** Property C176: several tones without harmonics.  How accurate the tunnelling currents are
    that follow from the junction voltages of a converged run. *)
From Coq Require Import List ZArith Lia Bool Arith Reals Lra String.
From Coquelicot Require Import Complex.
From Verif Require Import Base Sums Round Bessel Model_QtCurrent Spec_QtCurrent Spec_QtApi Spec_Power Model_Circuit Model_HB Spec_HB Spec_HBConv
  Proof_QtCurrent Proof_QtCurrent2 Proof_QtSym Proof_QtApi Proof_QtApi2 Proof_HB3 Proof_QtWit Proof_HBWit Proof_HBWit2 Proof_HBWit4 Proof_HBConv3 Spec_LipMany Proof_LipMany Spec_TruncMany Proof_RunCurrent Properties_Power Properties_BiasLip.
Import ListNotations.
Local Notation length := List.length.
Open Scope R_scope.

(** The DC current for the voltages [v] that a converged run returns, against the one for
    voltages [s] that balance the circuit exactly. *)
Theorem C176_dc : forall c resp num_b M nu inv max_it stop vj0 d zj v it s r r', q_num_p (h_q c) = 1%nat -> separate (h_q c) -> 0 <= M -> 0 < nu -> (forall f, (1 <= f <= q_num_f (h_q c))%nat -> nu <= q_freq (h_q c) f) -> 4 * M * impedances c < nu ->
  (forall i x, (i < q_npts (h_q c))%nat -> shifted (q_vb (h_q c) i) (truncations num_b (q_num_f (h_q c))) (freqs (h_q c)) x -> Cmod (resp x) <= M) -> alone (h_q c) 0 (repeat 0%Z (q_num_f (h_q c))) ->
  simulates c num_b -> inverts inv -> (0 <= max_it)%Z -> r_ret (harmonic_balance besselJ inv c resp num_b max_it stop vj0 d "x" zj) = Ok (RetX v it true) ->
  everywhere (h_q c) (fun f p i => ~ undefined besselJ (driven c) resp num_b v f p i) -> solution besselJ (driven c) resp num_b s ->
  qtcurrent besselJ v (h_q c) resp (FScalar 0) num_b None = Ok (QReal r) -> qtcurrent besselJ s (h_q c) resp (FScalar 0) num_b None = Ok (QReal r') ->
  forall i, (i < q_npts (h_q c))%nat -> (nu - 4 * M * impedances c) * Rabs (nth i r 0 - nth i r' 0) <= 2 * M * (stop * total (h_q c) (fun f p => Cmod (v f p i))).
Proof. exact dc_accurate. Qed.
Print Assumptions C176_dc.

(** The same for the current of any lone mixing product. *)
Theorem C176_ac : forall c resp num_b M nu inv max_it stop vj0 d zj v it s w a r r', q_num_p (h_q c) = 1%nat -> separate (h_q c) -> 0 <= M -> 0 < nu -> (forall f, (1 <= f <= q_num_f (h_q c))%nat -> nu <= q_freq (h_q c) f) -> 4 * M * impedances c < nu ->
  (forall i x, (i < q_npts (h_q c))%nat -> shifted (q_vb (h_q c) i) (truncations num_b (q_num_f (h_q c))) (freqs (h_q c)) x -> Cmod (resp x) <= M) -> alone (h_q c) w a ->
  simulates c num_b -> inverts inv -> (0 <= max_it)%Z -> r_ret (harmonic_balance besselJ inv c resp num_b max_it stop vj0 d "x" zj) = Ok (RetX v it true) ->
  everywhere (h_q c) (fun f p i => ~ undefined besselJ (driven c) resp num_b v f p i) -> solution besselJ (driven c) resp num_b s ->
  qtcurrent besselJ v (h_q c) resp (FList [w]) num_b None = Ok (QRows [r]) -> qtcurrent besselJ s (h_q c) resp (FList [w]) num_b None = Ok (QRows [r']) ->
  forall i, (i < q_npts (h_q c))%nat -> (nu - 4 * M * impedances c) * Cmod (nth i r (RtoC 0) - nth i r' (RtoC 0))%C <= 4 * M * (stop * total (h_q c) (fun f p => Cmod (v f p i))).
Proof. exact ac_accurate. Qed.
Print Assumptions C176_ac.

(** Two converged runs for one circuit, whatever their starts, dampings, matrix inverses and
    targets, lead to nearly the same DC current. *)
Theorem C176_same_dc : forall c resp num_b M nu inv max_it stop vj0 d zj v it inv' max_it' stop' vj0' d' zj' v' it' r r', q_num_p (h_q c) = 1%nat -> separate (h_q c) -> 0 <= M -> 0 < nu -> (forall f, (1 <= f <= q_num_f (h_q c))%nat -> nu <= q_freq (h_q c) f) -> 4 * M * impedances c < nu ->
  (forall i x, (i < q_npts (h_q c))%nat -> shifted (q_vb (h_q c) i) (truncations num_b (q_num_f (h_q c))) (freqs (h_q c)) x -> Cmod (resp x) <= M) -> alone (h_q c) 0 (repeat 0%Z (q_num_f (h_q c))) ->
  simulates c num_b -> inverts inv -> inverts inv' -> (0 <= max_it)%Z -> (0 <= max_it')%Z ->
  r_ret (harmonic_balance besselJ inv c resp num_b max_it stop vj0 d "x" zj) = Ok (RetX v it true) -> r_ret (harmonic_balance besselJ inv' c resp num_b max_it' stop' vj0' d' "x" zj') = Ok (RetX v' it' true) ->
  everywhere (h_q c) (fun f p i => ~ undefined besselJ (driven c) resp num_b v f p i /\ ~ undefined besselJ (driven c) resp num_b v' f p i) ->
  qtcurrent besselJ v (h_q c) resp (FScalar 0) num_b None = Ok (QReal r) -> qtcurrent besselJ v' (h_q c) resp (FScalar 0) num_b None = Ok (QReal r') ->
  forall i, (i < q_npts (h_q c))%nat -> (nu - 4 * M * impedances c) * Rabs (nth i r 0 - nth i r' 0) <= 2 * M * (stop * total (h_q c) (fun f p => Cmod (v f p i)) + stop' * total (h_q c) (fun f p => Cmod (v' f p i))).
Proof. exact dc_same. Qed.
Print Assumptions C176_same_dc.

Lemma bl_alone_0 : alone bl_q 0 (repeat 0%Z (q_num_f bl_q)).
Proof. bl_alone. Qed.
(** The circuit of [C175_case]: an undamped run from the default guess and a damped one from a
    start elsewhere both converge, and their DC currents differ by little. *)
Example C176_case : exists N v m v' m' r r',
  r_ret (harmonic_balance besselJ exact_inv bl_c bl_resp (NbTuple [3; 2]%nat) (Z.of_nat (S N)) (1 / 1000) None 1 "x" (RtoC (1 / 2))) = Ok (RetX v (Z.of_nat m) true) /\
  r_ret (harmonic_balance besselJ exact_inv bl_c bl_resp (NbTuple [3; 2]%nat) (Z.of_nat (S N)) (1 / 100) (Some (fun _ _ _ => RtoC 5)) (1 / 2) "x" (RtoC 1)) = Ok (RetX v' (Z.of_nat m') true) /\
  qtcurrent besselJ v bl_q bl_resp (FScalar 0) (NbTuple [3; 2]%nat) None = Ok (QReal r) /\ qtcurrent besselJ v' bl_q bl_resp (FScalar 0) (NbTuple [3; 2]%nat) None = Ok (QReal r') /\
  15 / 8 * Rabs (nth 4 r 0 - nth 4 r' 0) <= 2 * (1 / 1000 * total bl_q (fun f p => Cmod (v f p 4%nat)) + 1 / 100 * total bl_q (fun f p => Cmod (v' f p 4%nat))).
Proof.
  assert (MZ : Cmod (RtoC (1 / 64)) = 1 / 64) by (rewrite Cmod_R, Rabs_pos_eq; lra).
  assert (NU : forall f, (1 <= f <= q_num_f bl_q)%nat -> 2 <= q_freq bl_q f) by (intros [|[|f]] F; cbn [bl_q q_freq]; lra).
  assert (SI : simulates bl_c (NbTuple [3; 2]%nat)) by exact (proj1 (proj2 (proj2 C175_case))).
  assert (HV : forall f, (1 <= f <= q_num_f (h_q bl_c))%nat -> 2 * 1 * Cmod (h_zt bl_c f 1%nat) < Cmod (source (h_vt bl_c f 1%nat))). { intros f F. cbn [bl_c h_vt h_zt]. rewrite MZ, source_big by apply big_1. rewrite Cmod_1. lra. }
  destruct (many_converges bl_c bl_resp (NbTuple [3; 2]%nat) 1 bl_args eq_refl bl_separate (fun i x _ _ => bl_unit x) ltac:(lra) SI) as [s [_ [_ HN]]]; [|exact HV|].
  { intros f F. change (zsum_c bl_c) with (impedances bl_c). rewrite bl_imp. cbn [bl_c h_q bl_q q_freq]. destruct f as [|[|f]]; lra. }
  destruct (HN exact_inv 1 None (RtoC (1 / 2)) (1 / 1000) exact_inv_inverts) as [N1 H1]; try lra.
  { right. intros f p _. cbn [bl_c h_zt]. rewrite <- RtoC_plus. intros E. apply (f_equal fst) in E. cbn [fst RtoC] in E. lra. }
  destruct (HN exact_inv (1 / 2) (Some (fun _ _ _ => RtoC 5)) (RtoC 1) (1 / 100) exact_inv_inverts) as [N2 H2]; try lra. { left. discriminate. }
  set (N := (N1 + N2)%nat). destruct (H1 (Z.of_nat (S N)) ltac:(unfold N; lia)) as (v & m & R1 & _). destruct (H2 (Z.of_nat (S N)) ltac:(unfold N; lia)) as (v' & m' & R2 & _).
  destruct (qt_dc_runs v bl_q bl_resp (NbTuple [3; 2]%nat) bl_args) as [r E]. destruct (qt_dc_runs v' bl_q bl_resp (NbTuple [3; 2]%nat) bl_args) as [r' E'].
  exists N, v, m, v', m', r, r'. split; [exact R1|]. split; [exact R2|]. split; [exact E|]. split; [exact E'|].
  assert (NN : (0 <= Z.of_nat (S N))%Z) by lia. assert (DF := fun v => driven_defined bl_c bl_resp (NbTuple [3; 2]%nat) 1 v bl_args eq_refl bl_separate (fun i x _ _ => bl_unit x) ltac:(lra) HV).
  assert (Z4 : 4 * 1 * impedances bl_c < 2) by (rewrite bl_imp; lra).
  pose proof (C176_same_dc bl_c bl_resp (NbTuple [3; 2]%nat) 1 2 exact_inv _ _ _ _ _ v _ exact_inv _ _ _ _ _ v' _ r r' eq_refl bl_separate ltac:(lra) ltac:(lra) NU Z4 (fun i x _ _ => bl_unit x) bl_alone_0 SI exact_inv_inverts exact_inv_inverts NN NN R1 R2 (fun f p i S I => conj (DF v f p i S I) (DF v' f p i S I)) E E' 4%nat ltac:(cbn; lia)) as H.
  rewrite bl_imp in H. cbn [bl_c h_q] in H. lra.
Qed.
