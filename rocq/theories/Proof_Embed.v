(** How the simulated currents depend on the embedding circuit. *)
From Coq Require Import List ZArith Lia Bool Arith Reals Lra String.
From Coquelicot Require Import Coquelicot.
From Verif Require Import Base Sums Round Bessel Model_QtCurrent Spec_QtCurrent Spec_QtApi Spec_Power Proof_QtWit Model_Circuit Model_HB Spec_HB Spec_HBConv Proof_HB3 Proof_HBConv Proof_HBConv3 Proof_Lip1 Spec_LipMany Proof_LipMany Spec_TruncMany Proof_RunCurrent.
From Verif Require Proof_HBStable.
Import ListNotations.
Local Notation length := List.length.
Open Scope R_scope.

Lemma bounded_change c c' resp num_b M v i : args_ok (h_q c) num_b -> q_num_p (h_q c) = 1%nat -> separate (h_q c) ->
  (forall i x, (i < q_npts (h_q c))%nat -> shifted (q_vb (h_q c) i) (truncations num_b (q_num_f (h_q c))) (freqs (h_q c)) x -> Cmod (resp x) <= M) -> (i < q_npts (h_q c))%nat ->
  total (h_q c) (fun f p => Cmod (source (h_vt c f p) - source (h_vt c' f p))%C + Cmod (h_zt c f p - h_zt c' f p)%C * Cmod (current_at besselJ (h_q c) resp num_b v f p i)) <= total (h_q c) (fun f p => Cmod (source (h_vt c f p) - source (h_vt c' f p))%C + 2 * M * Cmod (h_zt c f p - h_zt c' f p)%C).
Proof.
  intros A HP HT B Hi. rewrite !(many_total c HP). apply rsum_to_le. intros f F. apply Rplus_le_compat_l. rewrite (Rmult_comm (2 * M)). apply Rmult_le_compat_l; [apply Cmod_ge_0|].
  apply (many_at c resp num_b M A HP HT B v (S f) i); [lia|assumption].
Qed.
Theorem circuits_solution : forall c c' resp num_b M nu s s' w a r r', args_ok (h_q c) num_b -> h_q c' = h_q c -> q_num_p (h_q c) = 1%nat -> separate (h_q c) -> 0 <= M -> 0 < nu -> (forall f, (1 <= f <= q_num_f (h_q c))%nat -> nu <= q_freq (h_q c) f) -> 4 * M * impedances c < nu ->
  (forall i x, (i < q_npts (h_q c))%nat -> shifted (q_vb (h_q c) i) (truncations num_b (q_num_f (h_q c))) (freqs (h_q c)) x -> Cmod (resp x) <= M) ->
  solution besselJ (driven c) resp num_b s -> solution besselJ (driven c') resp num_b s' -> alone (h_q c) w a -> qtcurrent besselJ s (h_q c) resp (FList [w]) num_b None = Ok (QRows [r]) -> qtcurrent besselJ s' (h_q c) resp (FList [w]) num_b None = Ok (QRows [r']) ->
  forall i, (i < q_npts (h_q c))%nat -> (nu - 4 * M * impedances c) * Cmod (nth i r (RtoC 0) - nth i r' (RtoC 0))%C <= 4 * M * total (h_q c) (fun f p => Cmod (source (h_vt c f p) - source (h_vt c' f p))%C + 2 * M * Cmod (h_zt c f p - h_zt c' f p)%C).
Proof.
  intros c c' resp num_b M nu s s' w a r r' A Q HP HT P0 N0 HN HZ B SOL SOL' AL E E' i Hi.
  pose proof (Proof_HBStable.two_circuits besselJ c c' resp num_b _ s s' Q (its_follows c resp num_b M nu HP HT P0 N0 HN B A) SOL SOL' i Hi) as D.
  eapply (scaled c M nu P0 N0 HZ 4 _ (distance (h_q c) s s' i)); [lra| |eapply Rle_trans; [exact D|now apply bounded_change]].
  eapply (through M nu P0 N0 4); [lra|exact (many_call (h_q c) resp num_b M s s' w a r r' i A HP AL Hi (fun x => B i x Hi) E E')|]. apply (steps_distance c nu HP N0 HN).
Qed.
Theorem circuits_run : forall c c' resp num_b M nu inv max_it stop vj0 d zj v it inv' max_it' stop' vj0' d' zj' v' it' w a r r', h_q c' = h_q c -> q_num_p (h_q c) = 1%nat -> separate (h_q c) -> 0 <= M -> 0 < nu -> (forall f, (1 <= f <= q_num_f (h_q c))%nat -> nu <= q_freq (h_q c) f) -> 4 * M * impedances c < nu ->
  (forall i x, (i < q_npts (h_q c))%nat -> shifted (q_vb (h_q c) i) (truncations num_b (q_num_f (h_q c))) (freqs (h_q c)) x -> Cmod (resp x) <= M) ->
  simulates c num_b -> inverts inv -> (0 <= max_it)%Z -> r_ret (harmonic_balance besselJ inv c resp num_b max_it stop vj0 d "x" zj) = Ok (RetX v it true) ->
  simulates c' num_b -> inverts inv' -> (0 <= max_it')%Z -> r_ret (harmonic_balance besselJ inv' c' resp num_b max_it' stop' vj0' d' "x" zj') = Ok (RetX v' it' true) ->
  everywhere (h_q c) (fun f p i => ~ undefined besselJ (driven c) resp num_b v f p i /\ ~ undefined besselJ (driven c') resp num_b v' f p i) ->
  alone (h_q c) w a -> qtcurrent besselJ v (h_q c) resp (FList [w]) num_b None = Ok (QRows [r]) -> qtcurrent besselJ v' (h_q c) resp (FList [w]) num_b None = Ok (QRows [r']) ->
  forall i, (i < q_npts (h_q c))%nat -> (nu - 4 * M * impedances c) * Cmod (nth i r (RtoC 0) - nth i r' (RtoC 0))%C <= 4 * M * (stop * total (h_q c) (fun f p => Cmod (v f p i)) + stop' * total (h_q c) (fun f p => Cmod (v' f p i)) + total (h_q c) (fun f p => Cmod (source (h_vt c f p) - source (h_vt c' f p))%C + 2 * M * Cmod (h_zt c f p - h_zt c' f p)%C)).
Proof.
  intros c c' resp num_b M nu inv max_it stop vj0 d zj v it inv' max_it' stop' vj0' d' zj' v' it' w a r r' Q HP HT P0 N0 HN HZ B HS INV MI R1 HS' INV' MI' R1' U AL E E' i Hi. assert (A := proj1 HS).
  pose proof (Proof_HBStable.two_runs besselJ c c' resp num_b _ inv max_it stop vj0 d zj v it inv' max_it' stop' vj0' d' zj' v' it' Q (its_follows c resp num_b M nu HP HT P0 N0 HN B A) HS INV MI R1 HS' INV' MI' R1' U i Hi) as D.
  eapply (scaled c M nu P0 N0 HZ 4 _ (distance (h_q c) v v' i)); [lra| |eapply Rle_trans; [exact D|apply Rplus_le_compat_l; now apply bounded_change]].
  eapply (through M nu P0 N0 4); [lra|exact (many_call (h_q c) resp num_b M v v' w a r r' i A HP AL Hi (fun x => B i x Hi) E E')|]. apply (steps_distance c nu HP N0 HN).
Qed.
