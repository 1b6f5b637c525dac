(** The tunnelling currents that follow from converged runs. *)
From Coq Require Import List ZArith Lia Bool Arith Reals Lra String.
From Coquelicot Require Import Coquelicot.
From Verif Require Import Base Sums Round Bessel Model_QtCurrent Spec_QtCurrent Spec_QtApi Spec_Power Proof_QtWit Model_Circuit Model_HB Spec_HB Spec_HBConv Proof_HB3 Proof_HBConv Proof_HBConv3 Proof_Lip1 Spec_LipMany Proof_LipMany Spec_TruncMany.
From Verif Require Proof_HBStable Proof_TruncMany.
Import ListNotations.
Local Notation length := List.length.
Open Scope R_scope.

Section Run.
Variables (c : hcct) (resp : R -> C) (num_b : numb) (M nu : R).
Local Notation q := (h_q c).
Local Notation kk := (4 * M * impedances c / nu).
Hypothesis HP : q_num_p q = 1%nat.
Hypothesis HT : separate q.
Hypothesis P0 : 0 <= M.
Hypothesis N0 : 0 < nu.
Hypothesis HN : forall f, (1 <= f <= q_num_f q)%nat -> nu <= q_freq q f.
Hypothesis HZ : 4 * M * impedances c < nu.
Hypothesis HM : forall i x, (i < q_npts q)%nat -> shifted (q_vb q i) (truncations num_b (q_num_f q)) (freqs q) x -> Cmod (resp x) <= M.
Lemma steps_distance v w i : nu * photon_steps q v w i <= distance q v w i.
Proof.
  unfold photon_steps, distance. rewrite (many_total c HP), <- rsum_to_scal. apply rsum_to_le. intros f F. assert (H := HN (S f) ltac:(lia)). set (x := Cmod _). assert (X : 0 <= x) by apply Cmod_ge_0.
  apply Rle_trans with (q_freq q (S f) * (x / q_freq q (S f))); [|right; field; lra]. apply Rmult_le_compat_r; [|assumption]. apply Rmult_le_pos; [assumption|apply Rlt_le, Rinv_0_lt_compat; lra].
Qed.
Lemma through g X E d : 0 <= g -> X <= g * M * d -> nu * d <= E -> nu * X <= g * M * E.
Proof. intros G H1 H2. apply Rle_trans with (nu * (g * M * d)); [apply Rmult_le_compat_l; lra|]. replace (nu * (g * M * d)) with (g * M * (nu * d)) by ring. apply Rmult_le_compat_l; [|assumption]. apply Rmult_le_pos; assumption. Qed.
Lemma scaled g X D E : 0 <= g -> nu * X <= g * M * D -> (1 - kk) * D <= E -> (nu - 4 * M * impedances c) * X <= g * M * E.
Proof.
  intros G H1 H2. pose proof (Proof_TruncMany.kk_range c M nu P0 N0 HZ) as K. replace (nu - 4 * M * impedances c) with (nu * (1 - kk)) by (field; lra).
  apply Rle_trans with ((1 - kk) * (g * M * D)); [replace (nu * (1 - kk) * X) with ((1 - kk) * (nu * X)) by ring; apply Rmult_le_compat_l; lra|]. replace ((1 - kk) * (g * M * D)) with (g * M * ((1 - kk) * D)) by ring. apply Rmult_le_compat_l; [now apply Rmult_le_pos|assumption].
Qed.
Lemma its_follows : args_ok q num_b -> follows besselJ c resp num_b kk.
Proof. intros A. exact (many_follows c resp num_b M A HP HT HM P0 nu N0 HN). Qed.
End Run.

Theorem dc_accurate c resp num_b M nu inv max_it stop vj0 d zj v it s r r' : q_num_p (h_q c) = 1%nat -> separate (h_q c) -> 0 <= M -> 0 < nu -> (forall f, (1 <= f <= q_num_f (h_q c))%nat -> nu <= q_freq (h_q c) f) -> 4 * M * impedances c < nu ->
  (forall i x, (i < q_npts (h_q c))%nat -> shifted (q_vb (h_q c) i) (truncations num_b (q_num_f (h_q c))) (freqs (h_q c)) x -> Cmod (resp x) <= M) -> alone (h_q c) 0 (repeat 0%Z (q_num_f (h_q c))) ->
  simulates c num_b -> inverts inv -> (0 <= max_it)%Z -> r_ret (harmonic_balance besselJ inv c resp num_b max_it stop vj0 d "x" zj) = Ok (RetX v it true) ->
  everywhere (h_q c) (fun f p i => ~ undefined besselJ (driven c) resp num_b v f p i) -> solution besselJ (driven c) resp num_b s ->
  qtcurrent besselJ v (h_q c) resp (FScalar 0) num_b None = Ok (QReal r) -> qtcurrent besselJ s (h_q c) resp (FScalar 0) num_b None = Ok (QReal r') ->
  forall i, (i < q_npts (h_q c))%nat -> (nu - 4 * M * impedances c) * Rabs (nth i r 0 - nth i r' 0) <= 2 * M * (stop * total (h_q c) (fun f p => Cmod (v f p i))).
Proof.
  intros HP HT P0 N0 HN HZ HM AL HS INV MI R1 U SOL E E' i Hi. assert (A := proj1 HS).
  pose proof (Proof_HBStable.run_imbalance besselJ inv c resp num_b max_it stop vj0 d zj v it i HS INV MI R1 U Hi) as I1.
  pose proof (near_solution besselJ (driven c) resp num_b _ (its_follows c resp num_b M nu HP HT P0 N0 HN HM A) v s i Hi (Proof_TruncMany.kk_range c M nu P0 N0 HZ) SOL) as D. cbn [h_q driven] in D.
  eapply (scaled c M nu P0 N0 HZ 2 _ (distance (h_q c) v s i)); [lra| |eapply Rle_trans; [exact D|exact I1]].
  eapply (through M nu P0 N0 2); [lra|exact (many_dc (h_q c) resp num_b M v s r r' i A HP AL Hi (fun x => HM i x Hi) E E')|]. apply (steps_distance c nu HP N0 HN).
Qed.
Theorem ac_accurate c resp num_b M nu inv max_it stop vj0 d zj v it s w a r r' : q_num_p (h_q c) = 1%nat -> separate (h_q c) -> 0 <= M -> 0 < nu -> (forall f, (1 <= f <= q_num_f (h_q c))%nat -> nu <= q_freq (h_q c) f) -> 4 * M * impedances c < nu ->
  (forall i x, (i < q_npts (h_q c))%nat -> shifted (q_vb (h_q c) i) (truncations num_b (q_num_f (h_q c))) (freqs (h_q c)) x -> Cmod (resp x) <= M) -> alone (h_q c) w a ->
  simulates c num_b -> inverts inv -> (0 <= max_it)%Z -> r_ret (harmonic_balance besselJ inv c resp num_b max_it stop vj0 d "x" zj) = Ok (RetX v it true) ->
  everywhere (h_q c) (fun f p i => ~ undefined besselJ (driven c) resp num_b v f p i) -> solution besselJ (driven c) resp num_b s ->
  qtcurrent besselJ v (h_q c) resp (FList [w]) num_b None = Ok (QRows [r]) -> qtcurrent besselJ s (h_q c) resp (FList [w]) num_b None = Ok (QRows [r']) ->
  forall i, (i < q_npts (h_q c))%nat -> (nu - 4 * M * impedances c) * Cmod (nth i r (RtoC 0) - nth i r' (RtoC 0))%C <= 4 * M * (stop * total (h_q c) (fun f p => Cmod (v f p i))).
Proof.
  intros HP HT P0 N0 HN HZ HM AL HS INV MI R1 U SOL E E' i Hi. assert (A := proj1 HS).
  pose proof (Proof_HBStable.run_imbalance besselJ inv c resp num_b max_it stop vj0 d zj v it i HS INV MI R1 U Hi) as I1.
  pose proof (near_solution besselJ (driven c) resp num_b _ (its_follows c resp num_b M nu HP HT P0 N0 HN HM A) v s i Hi (Proof_TruncMany.kk_range c M nu P0 N0 HZ) SOL) as D. cbn [h_q driven] in D.
  eapply (scaled c M nu P0 N0 HZ 4 _ (distance (h_q c) v s i)); [lra| |eapply Rle_trans; [exact D|exact I1]].
  eapply (through M nu P0 N0 4); [lra|exact (many_call (h_q c) resp num_b M v s w a r r' i A HP AL Hi (fun x => HM i x Hi) E E')|]. apply (steps_distance c nu HP N0 HN).
Qed.
Theorem dc_same c resp num_b M nu inv max_it stop vj0 d zj v it inv' max_it' stop' vj0' d' zj' v' it' r r' : q_num_p (h_q c) = 1%nat -> separate (h_q c) -> 0 <= M -> 0 < nu -> (forall f, (1 <= f <= q_num_f (h_q c))%nat -> nu <= q_freq (h_q c) f) -> 4 * M * impedances c < nu ->
  (forall i x, (i < q_npts (h_q c))%nat -> shifted (q_vb (h_q c) i) (truncations num_b (q_num_f (h_q c))) (freqs (h_q c)) x -> Cmod (resp x) <= M) -> alone (h_q c) 0 (repeat 0%Z (q_num_f (h_q c))) ->
  simulates c num_b -> inverts inv -> inverts inv' -> (0 <= max_it)%Z -> (0 <= max_it')%Z ->
  r_ret (harmonic_balance besselJ inv c resp num_b max_it stop vj0 d "x" zj) = Ok (RetX v it true) -> r_ret (harmonic_balance besselJ inv' c resp num_b max_it' stop' vj0' d' "x" zj') = Ok (RetX v' it' true) ->
  everywhere (h_q c) (fun f p i => ~ undefined besselJ (driven c) resp num_b v f p i /\ ~ undefined besselJ (driven c) resp num_b v' f p i) ->
  qtcurrent besselJ v (h_q c) resp (FScalar 0) num_b None = Ok (QReal r) -> qtcurrent besselJ v' (h_q c) resp (FScalar 0) num_b None = Ok (QReal r') ->
  forall i, (i < q_npts (h_q c))%nat -> (nu - 4 * M * impedances c) * Rabs (nth i r 0 - nth i r' 0) <= 2 * M * (stop * total (h_q c) (fun f p => Cmod (v f p i)) + stop' * total (h_q c) (fun f p => Cmod (v' f p i))).
Proof.
  intros HP HT P0 N0 HN HZ HM AL HS INV INV' MI MI' R1 R2 U E E' i Hi. assert (A := proj1 HS).
  eapply (scaled c M nu P0 N0 HZ 2 _ (distance (h_q c) v v' i)); [lra| |].
  - eapply (through M nu P0 N0 2); [lra|exact (many_dc (h_q c) resp num_b M v v' r r' i A HP AL Hi (fun x => HM i x Hi) E E')|]. apply (steps_distance c nu HP N0 HN).
  - exact (Proof_HBStable.same_circuit besselJ c resp num_b _ inv max_it stop vj0 d zj v it inv' max_it' stop' vj0' d' zj' v' it' (its_follows c resp num_b M nu HP HT P0 N0 HN HM A) HS INV INV' MI MI' R1 R2 U i Hi).
Qed.

Lemma driven_defined c resp num_b M v : args_ok (h_q c) num_b -> q_num_p (h_q c) = 1%nat -> separate (h_q c) ->
  (forall i x, (i < q_npts (h_q c))%nat -> shifted (q_vb (h_q c) i) (truncations num_b (q_num_f (h_q c))) (freqs (h_q c)) x -> Cmod (resp x) <= M) -> 0 <= M ->
  (forall f, (1 <= f <= q_num_f (h_q c))%nat -> 2 * M * Cmod (h_zt c f 1%nat) < Cmod (source (h_vt c f 1%nat))) -> everywhere (h_q c) (fun f p i => ~ undefined besselJ (driven c) resp num_b v f p i).
Proof.
  intros A HP HT HM P0 HV f p i [SF SP] Hi [Z E]. rewrite HP in SP. assert (p = 1%nat) by lia. subst p. unfold residual_at in E. cbn [h_q h_vt h_zt driven] in E. rewrite Z in E.
  assert (HI := many_at c resp num_b M A HP HT HM v f i SF Hi). set (J := current_at _ _ _ _ _ _ _ _) in *. assert (H := HV f SF).
  assert (ES : source (h_vt c f 1%nat) = (h_zt c f 1%nat * J)%C). { transitivity ((source (h_vt c f 1%nat) - h_zt c f 1%nat * J - RtoC 0) + h_zt c f 1%nat * J)%C; [ring|]. rewrite E. ring. }
  rewrite ES, Cmod_mult in H. apply (Rmult_le_compat_l _ _ _ (Cmod_ge_0 (h_zt c f 1%nat))) in HI. lra.
Qed.
