(** Property C180: several tones without harmonics.  How much the simulated currents change with
    the source voltages and impedances of the embedding circuit. *)
From Coq Require Import List ZArith Lia Bool Arith Reals Lra String.
From Coquelicot Require Import Complex.
From Verif Require Import Base Sums Round Bessel Model_QtCurrent Spec_QtCurrent Spec_QtApi Spec_Power Model_Circuit Model_HB Spec_HB Spec_HBConv
  Proof_QtCurrent Proof_QtCurrent2 Proof_QtSym Proof_QtApi Proof_QtApi2 Proof_HB3 Proof_QtWit Proof_HBWit Proof_HBWit2 Proof_HBWit4 Proof_HBConv3 Spec_LipMany Proof_LipMany Spec_TruncMany Proof_RunCurrent Proof_Embed Properties_Power Properties_BiasLip.
Import ListNotations.
Local Notation length := List.length.
Open Scope R_scope.

(** The current of a lone mixing product for the exact balances of two circuits. *)
Theorem C180_solutions : forall c c' resp num_b M nu s s' w a r r', args_ok (h_q c) num_b -> h_q c' = h_q c -> q_num_p (h_q c) = 1%nat -> separate (h_q c) -> 0 <= M -> 0 < nu -> (forall f, (1 <= f <= q_num_f (h_q c))%nat -> nu <= q_freq (h_q c) f) -> 4 * M * impedances c < nu ->
  (forall i x, (i < q_npts (h_q c))%nat -> shifted (q_vb (h_q c) i) (truncations num_b (q_num_f (h_q c))) (freqs (h_q c)) x -> Cmod (resp x) <= M) ->
  solution besselJ (driven c) resp num_b s -> solution besselJ (driven c') resp num_b s' -> alone (h_q c) w a -> qtcurrent besselJ s (h_q c) resp (FList [w]) num_b None = Ok (QRows [r]) -> qtcurrent besselJ s' (h_q c) resp (FList [w]) num_b None = Ok (QRows [r']) ->
  forall i, (i < q_npts (h_q c))%nat -> (nu - 4 * M * impedances c) * Cmod (nth i r (RtoC 0) - nth i r' (RtoC 0))%C <= 4 * M * total (h_q c) (fun f p => Cmod (source (h_vt c f p) - source (h_vt c' f p))%C + 2 * M * Cmod (h_zt c f p - h_zt c' f p)%C).
Proof. exact circuits_solution. Qed.
Print Assumptions C180_solutions.

(** The same for converged runs, up to the errors that their targets allow. *)
Theorem C180_runs : forall c c' resp num_b M nu inv max_it stop vj0 d zj v it inv' max_it' stop' vj0' d' zj' v' it' w a r r', h_q c' = h_q c -> q_num_p (h_q c) = 1%nat -> separate (h_q c) -> 0 <= M -> 0 < nu -> (forall f, (1 <= f <= q_num_f (h_q c))%nat -> nu <= q_freq (h_q c) f) -> 4 * M * impedances c < nu ->
  (forall i x, (i < q_npts (h_q c))%nat -> shifted (q_vb (h_q c) i) (truncations num_b (q_num_f (h_q c))) (freqs (h_q c)) x -> Cmod (resp x) <= M) ->
  simulates c num_b -> inverts inv -> (0 <= max_it)%Z -> r_ret (harmonic_balance besselJ inv c resp num_b max_it stop vj0 d "x" zj) = Ok (RetX v it true) ->
  simulates c' num_b -> inverts inv' -> (0 <= max_it')%Z -> r_ret (harmonic_balance besselJ inv' c' resp num_b max_it' stop' vj0' d' "x" zj') = Ok (RetX v' it' true) ->
  everywhere (h_q c) (fun f p i => ~ undefined besselJ (driven c) resp num_b v f p i /\ ~ undefined besselJ (driven c') resp num_b v' f p i) ->
  alone (h_q c) w a -> qtcurrent besselJ v (h_q c) resp (FList [w]) num_b None = Ok (QRows [r]) -> qtcurrent besselJ v' (h_q c) resp (FList [w]) num_b None = Ok (QRows [r']) ->
  forall i, (i < q_npts (h_q c))%nat -> (nu - 4 * M * impedances c) * Cmod (nth i r (RtoC 0) - nth i r' (RtoC 0))%C <= 4 * M * (stop * total (h_q c) (fun f p => Cmod (v f p i)) + stop' * total (h_q c) (fun f p => Cmod (v' f p i)) + total (h_q c) (fun f p => Cmod (source (h_vt c f p) - source (h_vt c' f p))%C + 2 * M * Cmod (h_zt c f p - h_zt c' f p)%C)).
Proof. exact circuits_run. Qed.
Print Assumptions C180_runs.

(** The circuit of [C175_case], and the same with impedances of 1/128: both runs converge, and
    the currents of the first tone differ by at most 1/15 and what the targets allow. *)
Definition bl_c' : hcct := {| h_q := bl_q; h_vt := fun f p => RtoC 1; h_zt := fun f p => RtoC (1 / 128); h_wvt := true |}.
Lemma bl_runs z : 0 < z <= 1 / 64 -> let c := {| h_q := bl_q; h_vt := fun f p => RtoC 1; h_zt := fun f p => RtoC z; h_wvt := true |} in
  simulates c (NbTuple [3; 2]%nat) /\ (forall v, everywhere bl_q (fun f p i => ~ undefined besselJ (driven c) bl_resp (NbTuple [3; 2]%nat) v f p i)) /\
  exists N, forall max_it, (Z.of_nat N < max_it)%Z -> exists v m, r_ret (harmonic_balance besselJ exact_inv c bl_resp (NbTuple [3; 2]%nat) max_it (1 / 1000) None 1 "x" (RtoC (1 / 2))) = Ok (RetX v (Z.of_nat m) true).
Proof.
  intros HZ c. assert (MZ : Cmod (RtoC z) = z) by (rewrite Cmod_R, Rabs_pos_eq; lra).
  assert (SI : simulates c (NbTuple [3; 2]%nat)). { split; [exact bl_args|]. split; [cbn; lia|]. split; [reflexivity|]. exists 1%nat, 1%nat. cbn [c h_q h_zt bl_q q_num_f q_num_p]. repeat split; try lia. intros E. apply (f_equal fst) in E. cbn in E. lra. }
  assert (HV : forall f, (1 <= f <= q_num_f (h_q c))%nat -> 2 * 1 * Cmod (h_zt c f 1%nat) < Cmod (source (h_vt c f 1%nat))). { intros f F. cbn [c h_vt h_zt]. rewrite MZ, source_big by apply big_1. rewrite Cmod_1. lra. }
  split; [exact SI|]. split. { intros v. exact (driven_defined c bl_resp (NbTuple [3; 2]%nat) 1 v bl_args eq_refl bl_separate (fun i x _ _ => bl_unit x) ltac:(lra) HV). }
  destruct (many_converges c bl_resp (NbTuple [3; 2]%nat) 1 bl_args eq_refl bl_separate (fun i x _ _ => bl_unit x) ltac:(lra) SI) as [s [_ [_ HN]]]; [|exact HV|].
  { intros f F. unfold zsum_c. cbn [c h_q h_zt bl_q q_num_f q_freq rsum_to]. rewrite MZ. destruct f as [|[|f]]; lra. }
  destruct (HN exact_inv 1 None (RtoC (1 / 2)) (1 / 1000) exact_inv_inverts) as [N H]; try lra.
  { right. intros f p _. cbn [c h_zt]. rewrite <- RtoC_plus. intros E. apply (f_equal fst) in E. cbn [fst RtoC] in E. lra. }
  exists N. intros max_it HM. destruct (H max_it HM) as (v & m & R1 & _). eauto.
Qed.
Example C180_case : exists N v m v' m' r r',
  r_ret (harmonic_balance besselJ exact_inv bl_c bl_resp (NbTuple [3; 2]%nat) (Z.of_nat (S N)) (1 / 1000) None 1 "x" (RtoC (1 / 2))) = Ok (RetX v (Z.of_nat m) true) /\
  r_ret (harmonic_balance besselJ exact_inv bl_c' bl_resp (NbTuple [3; 2]%nat) (Z.of_nat (S N)) (1 / 1000) None 1 "x" (RtoC (1 / 2))) = Ok (RetX v' (Z.of_nat m') true) /\
  qtcurrent besselJ v bl_q bl_resp (FList [2]) (NbTuple [3; 2]%nat) None = Ok (QRows [r]) /\ qtcurrent besselJ v' bl_q bl_resp (FList [2]) (NbTuple [3; 2]%nat) None = Ok (QRows [r']) /\
  15 / 8 * Cmod (nth 4 r (RtoC 0) - nth 4 r' (RtoC 0))%C <= 4 * (1 / 1000 * total bl_q (fun f p => Cmod (v f p 4%nat)) + 1 / 1000 * total bl_q (fun f p => Cmod (v' f p 4%nat)) + 1 / 32).
Proof.
  assert (NU : forall f, (1 <= f <= q_num_f bl_q)%nat -> 2 <= q_freq bl_q f) by (intros [|[|f]] F; cbn [bl_q q_freq]; lra).
  destruct (bl_runs (1 / 64) ltac:(lra)) as (SI & DF & N1 & H1). destruct (bl_runs (1 / 128) ltac:(lra)) as (SI' & DF' & N2 & H2). fold bl_c in SI, DF, H1. fold bl_c' in SI', DF', H2.
  set (N := (N1 + N2)%nat). destruct (H1 (Z.of_nat (S N)) ltac:(unfold N; lia)) as (v & m & R1). destruct (H2 (Z.of_nat (S N)) ltac:(unfold N; lia)) as (v' & m' & R2).
  destruct (qt_ac_runs v bl_q bl_resp (NbTuple [3; 2]%nat) 2 bl_args) as [r E]. destruct (qt_ac_runs v' bl_q bl_resp (NbTuple [3; 2]%nat) 2 bl_args) as [r' E'].
  exists N, v, m, v', m', r, r'. split; [exact R1|]. split; [exact R2|]. split; [exact E|]. split; [exact E'|].
  assert (NN : (0 <= Z.of_nat (S N))%Z) by lia. assert (Z4 : 4 * 1 * impedances bl_c < 2) by (rewrite bl_imp; lra).
  pose proof (C180_runs bl_c bl_c' bl_resp (NbTuple [3; 2]%nat) 1 2 exact_inv _ _ _ _ _ v _ exact_inv _ _ _ _ _ v' _ 2 _ r r' eq_refl eq_refl bl_separate ltac:(lra) ltac:(lra) NU Z4 (fun i x _ _ => bl_unit x) SI exact_inv_inverts NN R1 SI' exact_inv_inverts NN R2 (fun f p i S I => conj (DF v f p i S I) (DF' v' f p i S I)) bl_alone_1 E E' 4%nat ltac:(cbn; lia)) as H.
  rewrite bl_imp in H. rewrite (many_total bl_c eq_refl (fun f p => Cmod (source (h_vt bl_c f p) - source (h_vt bl_c' f p))%C + 2 * 1 * Cmod (h_zt bl_c f p - h_zt bl_c' f p)%C)) in H.
  change (h_q bl_c) with bl_q in H. set (t := total bl_q (fun f p => Cmod (v f p 4%nat))) in *. set (t' := total bl_q (fun f p => Cmod (v' f p 4%nat))) in *. cbn [bl_c bl_c' h_q h_vt h_zt bl_q q_num_f rsum_to] in H.
  replace (source (RtoC 1) - source (RtoC 1))%C with (RtoC 0) in H by ring. rewrite <- RtoC_minus, Cmod_0, Cmod_R, (Rabs_pos_eq (1 / 64 - 1 / 128)) in H by lra. lra.
Qed.
