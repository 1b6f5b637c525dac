(** How far two runs of harmonic_balance can be apart. *)
From Coq Require Import List ZArith Lia Bool Arith Reals Lra String.
From Coquelicot Require Import Coquelicot.
From Verif Require Import Base Sums Round Bessel Model_QtCurrent Spec_QtCurrent Spec_QtApi Model_Circuit Proof_Circuit Model_HB Spec_HB Spec_HBConv Proof_HB Proof_HB2 Proof_HB3 Proof_HB4 Proof_HB5 Proof_HB6 Proof_HBConv Proof_HBConv2 Proof_HBConv3.
Import ListNotations.
Local Notation length := List.length.
Open Scope R_scope.

Lemma near_each_other J c resp num_b k v w i : follows J c resp num_b k -> (i < q_npts (h_q c))%nat -> (1 - k) * distance (h_q c) v w i <= imbalance J c resp num_b v i + imbalance J c resp num_b w i.
Proof.
  intros F I. pose proof (F v w i I) as FV.
  assert (B : distance (h_q c) v w i <= (imbalance J c resp num_b v i + imbalance J c resp num_b w i) + total (h_q c) (fun f p => Cmod (h_zt c f p * (current_at J (h_q c) resp num_b v f p i - current_at J (h_q c) resp num_b w f p i))%C)).
  { unfold distance, imbalance. rewrite <- !total_plus. apply total_le. intros f p SG.
    replace (v f p i - w f p i)%C with (- (residual_at J c resp num_b v f p i + - residual_at J c resp num_b w f p i) + - (h_zt c f p * (current_at J (h_q c) resp num_b v f p i - current_at J (h_q c) resp num_b w f p i)))%C by (unfold residual_at; ring).
    eapply Rle_trans; [apply Cmod_triangle|]. rewrite !Cmod_opp. apply Rplus_le_compat_r. eapply Rle_trans; [apply Cmod_triangle|]. rewrite Cmod_opp. lra. }
  lra.
Qed.
(** How much two circuits with the same tones and bias voltages differ for junction voltages [v]. *)
Lemma other_circuit J c c' resp num_b v i : h_q c' = h_q c -> imbalance J (driven c) resp num_b v i <= imbalance J (driven c') resp num_b v i +
  total (h_q c) (fun f p => Cmod (source (h_vt c f p) - source (h_vt c' f p))%C + Cmod (h_zt c f p - h_zt c' f p)%C * Cmod (current_at J (h_q c) resp num_b v f p i)).
Proof.
  intros Q. unfold imbalance. cbn [h_q driven]. rewrite Q. rewrite <- total_plus. apply total_le. intros f p _. unfold residual_at. cbn [h_q h_vt h_zt driven]. rewrite Q.
  set (I := current_at _ _ _ _ _ _ _ _). replace (source (h_vt c f p) - h_zt c f p * I - v f p i)%C with ((source (h_vt c' f p) - h_zt c' f p * I - v f p i) + ((source (h_vt c f p) - source (h_vt c' f p)) + - ((h_zt c f p - h_zt c' f p) * I)))%C by ring.
  eapply Rle_trans; [apply Cmod_triangle|]. apply Rplus_le_compat_l. eapply Rle_trans; [apply Cmod_triangle|]. rewrite Cmod_opp, Cmod_mult. lra.
Qed.
Lemma run_imbalance J inv c resp num_b max_it stop vj0 d zj v it i : simulates c num_b -> inverts inv -> (0 <= max_it)%Z -> r_ret (harmonic_balance J inv c resp num_b max_it stop vj0 d "x" zj) = Ok (RetX v it true) ->
  everywhere (h_q c) (fun f p i => ~ undefined J (driven c) resp num_b v f p i) -> (i < q_npts (h_q c))%nat -> imbalance J (driven c) resp num_b v i <= stop * total (h_q c) (fun f p => Cmod (v f p i)).
Proof.
  intros HS INV HM R1 U Hi. rewrite driven_imbalance.
  assert (B := converged_balanced J inv c resp num_b max_it stop vj0 d zj v it HS HM INV R1). cbv zeta in B. rewrite cct_after in B by apply (sim_parts c num_b HS).
  rewrite <- total_scal. apply total_le. intros f p S. apply B; [|exact S|exact Hi]. intros g m j SG J1 [Z1 Z2]. apply (U g m j SG J1). split; [exact Z1|]. rewrite <- Z2. destruct SG as [S1 S2]. unfold residual_at. cbn [h_q h_vt h_zt driven clamped]. rewrite clamp_source by lia. reflexivity.
Qed.
Theorem two_runs J c c' resp num_b k inv max_it stop vj0 d zj v it inv' max_it' stop' vj0' d' zj' v' it' : h_q c' = h_q c -> follows J c resp num_b k ->
  simulates c num_b -> inverts inv -> (0 <= max_it)%Z -> r_ret (harmonic_balance J inv c resp num_b max_it stop vj0 d "x" zj) = Ok (RetX v it true) ->
  simulates c' num_b -> inverts inv' -> (0 <= max_it')%Z -> r_ret (harmonic_balance J inv' c' resp num_b max_it' stop' vj0' d' "x" zj') = Ok (RetX v' it' true) ->
  everywhere (h_q c) (fun f p i => ~ undefined J (driven c) resp num_b v f p i /\ ~ undefined J (driven c') resp num_b v' f p i) ->
  forall i, (i < q_npts (h_q c))%nat -> (1 - k) * distance (h_q c) v v' i <= stop * total (h_q c) (fun f p => Cmod (v f p i)) + stop' * total (h_q c) (fun f p => Cmod (v' f p i)) +
    total (h_q c) (fun f p => Cmod (source (h_vt c f p) - source (h_vt c' f p))%C + Cmod (h_zt c f p - h_zt c' f p)%C * Cmod (current_at J (h_q c) resp num_b v' f p i)).
Proof.
  intros Q F HS INV HM R1 HS' INV' HM' R1' U i Hi. assert (FD : follows J (driven c) resp num_b k) by exact F. pose proof (near_each_other J (driven c) resp num_b k v v' i FD Hi) as H. cbn [h_q driven] in H.
  pose proof (run_imbalance J inv c resp num_b max_it stop vj0 d zj v it i HS INV HM R1 (fun f p j S I => proj1 (U f p j S I)) Hi) as B1.
  assert (U' : everywhere (h_q c') (fun f p i => ~ undefined J (driven c') resp num_b v' f p i)) by (rewrite Q; intros f p j S I; exact (proj2 (U f p j S I))).
  pose proof (run_imbalance J inv' c' resp num_b max_it' stop' vj0' d' zj' v' it' i HS' INV' HM' R1' U' ltac:(rewrite Q; exact Hi)) as B2. rewrite Q in B2. pose proof (other_circuit J c c' resp num_b v' i Q). lra.
Qed.
Theorem same_circuit J c resp num_b k inv max_it stop vj0 d zj v it inv' max_it' stop' vj0' d' zj' v' it' : follows J c resp num_b k -> simulates c num_b -> inverts inv -> inverts inv' -> (0 <= max_it)%Z -> (0 <= max_it')%Z ->
  r_ret (harmonic_balance J inv c resp num_b max_it stop vj0 d "x" zj) = Ok (RetX v it true) -> r_ret (harmonic_balance J inv' c resp num_b max_it' stop' vj0' d' "x" zj') = Ok (RetX v' it' true) ->
  everywhere (h_q c) (fun f p i => ~ undefined J (driven c) resp num_b v f p i /\ ~ undefined J (driven c) resp num_b v' f p i) ->
  forall i, (i < q_npts (h_q c))%nat -> (1 - k) * distance (h_q c) v v' i <= stop * total (h_q c) (fun f p => Cmod (v f p i)) + stop' * total (h_q c) (fun f p => Cmod (v' f p i)).
Proof.
  intros F HS INV INV' HM HM' R1 R1' U i Hi. pose proof (two_runs J c c resp num_b k inv max_it stop vj0 d zj v it inv' max_it' stop' vj0' d' zj' v' it' eq_refl F HS INV HM R1 HS INV' HM' R1' U i Hi) as H.
  assert (Z : total (h_q c) (fun f p => Cmod (source (h_vt c f p) - source (h_vt c f p))%C + Cmod (h_zt c f p - h_zt c f p)%C * Cmod (current_at J (h_q c) resp num_b v' f p i)) = 0).
  { rewrite <- (total_0 (h_q c)). apply total_ext. intros f p _. replace (source (h_vt c f p) - source (h_vt c f p))%C with (RtoC 0) by ring. replace (h_zt c f p - h_zt c f p)%C with (RtoC 0) by ring. rewrite Cmod_0. ring. }
  lra.
Qed.
(** The balance itself. *)
Theorem two_circuits J c c' resp num_b k s s' : h_q c' = h_q c -> follows J c resp num_b k -> solution J (driven c) resp num_b s -> solution J (driven c') resp num_b s' ->
  forall i, (i < q_npts (h_q c))%nat -> (1 - k) * distance (h_q c) s s' i <= total (h_q c) (fun f p => Cmod (source (h_vt c f p) - source (h_vt c' f p))%C + Cmod (h_zt c f p - h_zt c' f p)%C * Cmod (current_at J (h_q c) resp num_b s' f p i)).
Proof.
  intros Q F S S' i Hi. assert (FD : follows J (driven c) resp num_b k) by exact F. pose proof (near_each_other J (driven c) resp num_b k s s' i FD Hi) as H. cbn [h_q driven] in H. pose proof (other_circuit J c c' resp num_b s' i Q) as O.
  assert (Z : forall c0 s0, h_q c0 = h_q c -> solution J (driven c0) resp num_b s0 -> imbalance J (driven c0) resp num_b s0 i = 0).
  { intros c0 s0 Q0 S0. unfold imbalance. rewrite <- (total_0 (h_q (driven c0))). apply total_ext. intros f p SG. rewrite (S0 f p i SG); [apply Cmod_0|]. cbn [h_q driven]. rewrite Q0. exact Hi. }
  rewrite (Z c s eq_refl S) in H. rewrite (Z c' s' Q S') in O. lra.
Qed.
