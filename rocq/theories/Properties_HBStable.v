(** Property C172: the result of harmonic_balance hardly depends on where it starts, and changes
    little with the embedding circuit.  Vocabulary in Spec_HB.v and Spec_HBConv.v. *)
From Coq Require Import List ZArith Lia Bool Arith Reals Lra String.
From Coquelicot Require Import Complex.
From Verif Require Import Base Sums Round Bessel Model_QtCurrent Spec_QtCurrent Spec_QtApi Model_Circuit Model_HB Spec_HB Spec_HBConv
  Proof_HB3 Proof_QtWit Proof_HBWit Proof_HBWit2 Proof_HBWit4 Proof_HBConv3 Proof_HBStable Properties_HBConv.
Import ListNotations.
Local Notation length := List.length.
Open Scope R_scope.

(** Two converged runs on one circuit, with any initial voltages, dampings, iteration limits and
    targets, return voltages that differ by at most the two targets. *)
Theorem C172_same_circuit : forall J c resp num_b k inv max_it stop vj0 d zj v it inv' max_it' stop' vj0' d' zj' v' it', follows J c resp num_b k -> simulates c num_b -> inverts inv -> inverts inv' -> (0 <= max_it)%Z -> (0 <= max_it')%Z ->
  r_ret (harmonic_balance J inv c resp num_b max_it stop vj0 d "x" zj) = Ok (RetX v it true) -> r_ret (harmonic_balance J inv' c resp num_b max_it' stop' vj0' d' "x" zj') = Ok (RetX v' it' true) ->
  everywhere (h_q c) (fun f p i => ~ undefined J (driven c) resp num_b v f p i /\ ~ undefined J (driven c) resp num_b v' f p i) ->
  forall i, (i < q_npts (h_q c))%nat -> (1 - k) * distance (h_q c) v v' i <= stop * total (h_q c) (fun f p => Cmod (v f p i)) + stop' * total (h_q c) (fun f p => Cmod (v' f p i)).
Proof. exact same_circuit. Qed.
Print Assumptions C172_same_circuit.

(** Other source voltages and impedances: by no more than those differ. *)
Theorem C172_two_circuits : forall J c c' resp num_b k inv max_it stop vj0 d zj v it inv' max_it' stop' vj0' d' zj' v' it', h_q c' = h_q c -> follows J c resp num_b k ->
  simulates c num_b -> inverts inv -> (0 <= max_it)%Z -> r_ret (harmonic_balance J inv c resp num_b max_it stop vj0 d "x" zj) = Ok (RetX v it true) ->
  simulates c' num_b -> inverts inv' -> (0 <= max_it')%Z -> r_ret (harmonic_balance J inv' c' resp num_b max_it' stop' vj0' d' "x" zj') = Ok (RetX v' it' true) ->
  everywhere (h_q c) (fun f p i => ~ undefined J (driven c) resp num_b v f p i /\ ~ undefined J (driven c') resp num_b v' f p i) ->
  forall i, (i < q_npts (h_q c))%nat -> (1 - k) * distance (h_q c) v v' i <= stop * total (h_q c) (fun f p => Cmod (v f p i)) + stop' * total (h_q c) (fun f p => Cmod (v' f p i)) +
    total (h_q c) (fun f p => Cmod (source (h_vt c f p) - source (h_vt c' f p))%C + Cmod (h_zt c f p - h_zt c' f p)%C * Cmod (current_at J (h_q c) resp num_b v' f p i)).
Proof. exact two_runs. Qed.
Print Assumptions C172_two_circuits.

(** The same of the exact balances. *)
Theorem C172_solutions : forall J c c' resp num_b k s s', h_q c' = h_q c -> follows J c resp num_b k -> solution J (driven c) resp num_b s -> solution J (driven c') resp num_b s' ->
  forall i, (i < q_npts (h_q c))%nat -> (1 - k) * distance (h_q c) s s' i <= total (h_q c) (fun f p => Cmod (source (h_vt c f p) - source (h_vt c' f p))%C + Cmod (h_zt c f p - h_zt c' f p)%C * Cmod (current_at J (h_q c) resp num_b s' f p i)).
Proof. exact two_circuits. Qed.
Print Assumptions C172_solutions.

(** Two runs of the circuit of C166, from 5 with half corrections and from -3 with full ones. *)
Lemma wc_defined v : everywhere (h_q wc) (fun f p i => ~ undefined J_lin (driven wc) ohm (NbInt 1) v f p i).
Proof.
  intros f p i S Hi [Z E]. change (i < 1)%nat in Hi. replace i with 0%nat in * by lia. apply w1_signal in S. destruct S as [-> ->]. unfold residual_at, driven in E. cbn [h_q h_vt h_zt] in E. unfold wc in E. cbn [h_q h_vt h_zt w1 Nat.eqb andb] in E.
  rewrite ohm_current, Z, source_big in E by apply big_1. apply (f_equal fst) in E. unfold Cminus, Cplus, Copp, Cmult, RtoC in E. cbn [fst snd] in E. lra.
Qed.
Example C172_case : exists N v m v' m',
  r_ret (harmonic_balance J_lin exact_inv wc ohm (NbInt 1) (Z.of_nat (S N)) (1 / 1000) (Some (fun _ _ _ => RtoC 5)) (1 / 2) "x" (RtoC 1)) = Ok (RetX v (Z.of_nat m) true) /\
  r_ret (harmonic_balance J_lin exact_inv wc ohm (NbInt 1) (Z.of_nat (S N)) (1 / 100) (Some (fun _ _ _ => RtoC (-3))) 1 "x" (RtoC 1)) = Ok (RetX v' (Z.of_nat m') true) /\
  9 / 10 * Cmod (v 1%nat 1%nat 0%nat - v' 1%nat 1%nat 0%nat)%C <= 1 / 1000 * Cmod (v 1%nat 1%nat 0%nat) + 1 / 100 * Cmod (v' 1%nat 1%nat 0%nat).
Proof.
  assert (MU : everywhere (h_q wc) (fun f p i => 10 / 11 <= Cmod (wc_solution f p i))) by (intros f p i _ _; unfold wc_solution; rewrite Cmod_R; apply Rle_abs).
  destruct (C166_converges J_lin exact_inv wc ohm (NbInt 1) (1 / 10) wc_solution (1 / 2) (Some (fun _ _ _ => RtoC 5)) (RtoC 1) (10 / 11) (1 / 1000) wc_simulates exact_inv_inverts wc_follows ltac:(lra) ltac:(lra) ltac:(left; discriminate) wc_solved ltac:(lra) MU ltac:(lra)) as [N1 H1].
  destruct (C166_converges J_lin exact_inv wc ohm (NbInt 1) (1 / 10) wc_solution 1 (Some (fun _ _ _ => RtoC (-3))) (RtoC 1) (10 / 11) (1 / 100) wc_simulates exact_inv_inverts wc_follows ltac:(lra) ltac:(lra) ltac:(left; discriminate) wc_solved ltac:(lra) MU ltac:(lra)) as [N2 H2].
  set (N := (N1 + N2)%nat). destruct (H1 (Z.of_nat (S N)) ltac:(unfold N; lia)) as [v [m [R1 _]]]. destruct (H2 (Z.of_nat (S N)) ltac:(unfold N; lia)) as [v' [m' [R2 _]]]. exists N, v, m, v', m'. split; [exact R1|]. split; [exact R2|].
  assert (NN : (0 <= Z.of_nat (S N))%Z) by lia. pose proof (C172_same_circuit J_lin wc ohm (NbInt 1) (1 / 10) exact_inv _ _ _ _ _ v _ exact_inv _ _ _ _ _ v' _ wc_follows wc_simulates exact_inv_inverts exact_inv_inverts NN NN R1 R2) as H.
  specialize (H (fun f p i S I => conj (wc_defined v f p i S I) (wc_defined v' f p i S I)) 0%nat ltac:(cbn; lia)). unfold distance in H. rewrite !wc_total in H. cbv beta in H. lra.
Qed.
