(** The error of the currents of a simulation, against any larger truncation. *)
From Coq Require Import List ZArith Lia Bool Arith Reals Lra String.
From Coquelicot Require Import Coquelicot.
From Verif Require Import Base Sums Round Bessel Model_QtCurrent Spec_QtCurrent Spec_QtApi Spec_Power Proof_QtApi Proof_QtApi2 Proof_QtWit Proof_Power2 Model_Circuit Model_HB Spec_HB Spec_HBConv Proof_HB3 Proof_HBConv Proof_HBLip2 Proof_HBConv3 Proof_Lip1 Spec_LipMany Proof_LipMany Spec_TruncMany Proof_RunCurrent.
From Verif Require Proof_HBStable Proof_TruncMany.
Import ListNotations.
Local Notation length := List.length.
Open Scope R_scope.

Theorem current_error c resp num_b num_b' M nu inv max_it stop vj0 d zj v it s w a i : q_num_p (h_q c) = 1%nat -> separate (h_q c) -> 0 <= M -> 0 < nu -> (forall f, (1 <= f <= q_num_f (h_q c))%nat -> nu <= q_freq (h_q c) f) ->
  4 * M * impedances c < nu -> args_ok (h_q c) num_b' -> no_larger (h_q c) num_b num_b' ->
  (forall i x, (i < q_npts (h_q c))%nat -> shifted (q_vb (h_q c) i) (truncations num_b' (q_num_f (h_q c))) (freqs (h_q c)) x -> Cmod (resp x) <= M) ->
  simulates c num_b -> inverts inv -> (0 <= max_it)%Z -> r_ret (harmonic_balance besselJ inv c resp num_b max_it stop vj0 d "x" zj) = Ok (RetX v it true) ->
  everywhere (h_q c) (fun f p i => ~ undefined besselJ (driven c) resp num_b v f p i) -> solution besselJ (driven c) resp num_b' s ->
  alone (h_q c) w a -> (i < q_npts (h_q c))%nat ->
  (nu - 4 * M * impedances c) * Cmod (current (q_num_p (h_q c)) (tones besselJ v (h_q c) num_b i) (freqs (h_q c)) (q_vb (h_q c) i) resp w - current (q_num_p (h_q c)) (tones besselJ s (h_q c) num_b' i) (freqs (h_q c)) (q_vb (h_q c) i) resp w)%C <= 4 * M * (stop * total (h_q c) (fun f p => Cmod (v f p i)) + nu * missed (h_q c) num_b v i).
Proof.
  intros HP HT P0 N0 HN HZ A' W B HS INV MI R1 U SOL AL Hi. assert (A := proj1 HS).
  pose proof (Proof_TruncMany.truncated_run c resp num_b num_b' M nu inv max_it stop vj0 d zj v it s HP HT P0 N0 HN HZ A' W B HS INV MI R1 U SOL i Hi) as D.
  pose proof (Proof_TruncMany.truncated (h_q c) resp num_b num_b' M i A' HP W (fun x => B i x Hi) v w a AL) as T.
  pose proof (many_current_lip (h_q c) resp num_b' M i A' HP (fun x => B i x Hi) v s w a AL) as L.
  assert (S0 := steps_nonneg (h_q c) num_b' i A' HP v s). assert (SD := steps_distance c nu HP N0 HN v s i).
  set (X := current (q_num_p (h_q c)) (tones besselJ v (h_q c) num_b i) (freqs (h_q c)) (q_vb (h_q c) i) resp w) in *. set (Y := current (q_num_p (h_q c)) (tones besselJ v (h_q c) num_b' i) (freqs (h_q c)) (q_vb (h_q c) i) resp w) in *. set (Z := current (q_num_p (h_q c)) (tones besselJ s (h_q c) num_b' i) (freqs (h_q c)) (q_vb (h_q c) i) resp w) in *.
  assert (L4 : Cmod (Y - Z)%C <= 4 * M * photon_steps (h_q c) v s i). { eapply Rle_trans; [exact L|]. apply Rmult_le_compat_r; [assumption|]. apply Rmult_le_compat_r; [assumption|]. unfold growth. destruct (forallb _ a); lra. }
  assert (N1 := through M nu P0 N0 4 _ _ _ ltac:(lra) L4 SD). assert (N2 := scaled c M nu P0 N0 HZ 4 _ _ _ ltac:(lra) N1 D).
  assert (XZ : Cmod (X - Z)%C <= Cmod (X - Y)%C + Cmod (Y - Z)%C) by (replace (X - Z)%C with ((X - Y) + (Y - Z))%C by ring; apply Cmod_triangle).
  set (g := nu - 4 * M * impedances c) in *. assert (G : 0 <= g) by (unfold g; lra). set (m := missed (h_q c) num_b v i) in *. set (t := stop * total _ _) in *.
  apply Rle_trans with (g * (4 * M * m) + 4 * M * (t + 4 * M * impedances c * m)); [|right; unfold g; ring].
  apply Rle_trans with (g * (Cmod (X - Y)%C + Cmod (Y - Z)%C)); [now apply Rmult_le_compat_l|]. rewrite Rmult_plus_distr_l. apply Rplus_le_compat; [now apply Rmult_le_compat_l|exact N2].
Qed.
Theorem ac_error c resp num_b num_b' M nu inv max_it stop vj0 d zj v it s w a r r' : q_num_p (h_q c) = 1%nat -> separate (h_q c) -> 0 <= M -> 0 < nu -> (forall f, (1 <= f <= q_num_f (h_q c))%nat -> nu <= q_freq (h_q c) f) ->
  4 * M * impedances c < nu -> args_ok (h_q c) num_b' -> no_larger (h_q c) num_b num_b' ->
  (forall i x, (i < q_npts (h_q c))%nat -> shifted (q_vb (h_q c) i) (truncations num_b' (q_num_f (h_q c))) (freqs (h_q c)) x -> Cmod (resp x) <= M) ->
  simulates c num_b -> inverts inv -> (0 <= max_it)%Z -> r_ret (harmonic_balance besselJ inv c resp num_b max_it stop vj0 d "x" zj) = Ok (RetX v it true) ->
  everywhere (h_q c) (fun f p i => ~ undefined besselJ (driven c) resp num_b v f p i) -> solution besselJ (driven c) resp num_b' s ->
  alone (h_q c) w a ->
  qtcurrent besselJ v (h_q c) resp (FList [w]) num_b None = Ok (QRows [r]) -> qtcurrent besselJ s (h_q c) resp (FList [w]) num_b' None = Ok (QRows [r']) ->
  forall i, (i < q_npts (h_q c))%nat -> (nu - 4 * M * impedances c) * Cmod (nth i r (RtoC 0) - nth i r' (RtoC 0))%C <= 4 * M * (stop * total (h_q c) (fun f p => Cmod (v f p i)) + nu * missed (h_q c) num_b v i).
Proof.
  intros HP HT P0 N0 HN HZ A' W B HS INV MI R1 U SOL AL E E' i Hi. rewrite qt_list in E by exact (proj1 HS). rewrite qt_list in E' by assumption. cbn [map] in E, E'. inversion E; subst r. inversion E'; subst r'. unfold spec_row. rewrite !nth_tab by assumption.
  exact (current_error c resp num_b num_b' M nu inv max_it stop vj0 d zj v it s w a i HP HT P0 N0 HN HZ A' W B HS INV MI R1 U SOL AL Hi).
Qed.
Theorem dc_error c resp num_b num_b' M nu inv max_it stop vj0 d zj v it s a r r' : q_num_p (h_q c) = 1%nat -> separate (h_q c) -> 0 <= M -> 0 < nu -> (forall f, (1 <= f <= q_num_f (h_q c))%nat -> nu <= q_freq (h_q c) f) ->
  4 * M * impedances c < nu -> args_ok (h_q c) num_b' -> no_larger (h_q c) num_b num_b' ->
  (forall i x, (i < q_npts (h_q c))%nat -> shifted (q_vb (h_q c) i) (truncations num_b' (q_num_f (h_q c))) (freqs (h_q c)) x -> Cmod (resp x) <= M) ->
  simulates c num_b -> inverts inv -> (0 <= max_it)%Z -> r_ret (harmonic_balance besselJ inv c resp num_b max_it stop vj0 d "x" zj) = Ok (RetX v it true) ->
  everywhere (h_q c) (fun f p i => ~ undefined besselJ (driven c) resp num_b v f p i) -> solution besselJ (driven c) resp num_b' s ->
  alone (h_q c) 0 a ->
  qtcurrent besselJ v (h_q c) resp (FScalar 0) num_b None = Ok (QReal r) -> qtcurrent besselJ s (h_q c) resp (FScalar 0) num_b' None = Ok (QReal r') ->
  forall i, (i < q_npts (h_q c))%nat -> (nu - 4 * M * impedances c) * Rabs (nth i r 0 - nth i r' 0) <= 4 * M * (stop * total (h_q c) (fun f p => Cmod (v f p i)) + nu * missed (h_q c) num_b v i).
Proof.
  intros HP HT P0 N0 HN HZ A' W B HS INV MI R1 U SOL AL E E' i Hi. rewrite (dc_row v (h_q c) resp num_b r (proj1 HS) E i Hi), (dc_row s (h_q c) resp num_b' r' A' E' i Hi).
  eapply Rle_trans; [|exact (current_error c resp num_b num_b' M nu inv max_it stop vj0 d zj v it s 0 a i HP HT P0 N0 HN HZ A' W B HS INV MI R1 U SOL AL Hi)]. apply Rmult_le_compat_l; [lra|]. apply (proj1 (part_le (_ - _)%C)).
Qed.
