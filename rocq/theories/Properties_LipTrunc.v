(** Property C171: one tone of one harmonic, balanced with different truncations.  Vocabulary
    in Spec_HB.v, Spec_HBConv.v and Spec_Power.v ([captured b x] is the sum of the squared
    Bessel functions up to order [b]). *)
From Coq Require Import List ZArith Lia Bool Arith Reals Lra String.
From Coquelicot Require Import Complex.
From Verif Require Import Base Sums Round Bessel Model_QtCurrent Spec_QtCurrent Spec_QtApi Spec_Power Model_Circuit Model_HB Spec_HB Spec_HBConv
  Proof_HB3 Proof_QtWit Proof_HBWit Proof_HBWit2 Proof_HBWit4 Proof_HBLip Proof_HBConv3 Proof_LipTrunc Properties_Lip1.
Import ListNotations.
Local Notation length := List.length.
Open Scope R_scope.

(** The alternating currents for two truncations differ by at most the root of the probability
    that the smaller one leaves out, times four times the bound of the response function. *)
Theorem C171_current : forall q resp b b' R0 v rb rb' i, args_ok q (NbInt b) -> q_num_f q = 1%nat -> q_num_p q = 1%nat -> / 10000 < q_freq q 1 -> (b <= b')%nat -> (i < q_npts q)%nat ->
  (forall k : Z, (Z.abs k <= Z.of_nat b')%Z -> Cmod (resp (q_vb q i + IZR k * q_freq q 1)) <= R0) ->
  qtcurrent besselJ v q resp (FList [q_freq q 1]) (NbInt b) None = Ok (QRows rb) -> qtcurrent besselJ v q resp (FList [q_freq q 1]) (NbInt b') None = Ok (QRows rb') ->
  Cmod (nth i (nth 0 rb []) (RtoC 0) - nth i (nth 0 rb' []) (RtoC 0))%C <= 4 * R0 * sqrt (1 - captured b (Cmod (v 1%nat 1%nat i) / q_freq q 1)).
Proof. exact truncation_call. Qed.
Print Assumptions C171_current.

(** The voltage [v] that a converged run with truncation [b] returns is near the one that
    balances the circuit with any larger truncation, by an estimate in terms of [v] itself. *)
Theorem C171_estimate : forall c resp b b' R0 inv max_it stop vj0 d zj v it s, q_num_f (h_q c) = 1%nat -> q_num_p (h_q c) = 1%nat -> / 10000 < q_freq (h_q c) 1 -> (b <= b')%nat ->
  (forall i (k : Z), (i < q_npts (h_q c))%nat -> (Z.abs k <= Z.of_nat b')%Z -> Cmod (resp (q_vb (h_q c) i + IZR k * q_freq (h_q c) 1)) <= R0) ->
  let z := Cmod (h_zt c 1%nat 1%nat) in 0 <= R0 -> 4 * R0 * z < q_freq (h_q c) 1 ->
  simulates c (NbInt b) -> inverts inv -> (0 <= max_it)%Z -> r_ret (harmonic_balance besselJ inv c resp (NbInt b) max_it stop vj0 d "x" zj) = Ok (RetX v it true) ->
  everywhere (h_q c) (fun f p i => v f p i <> RtoC 0) -> solution besselJ (driven c) resp (NbInt b') s ->
  forall i, (i < q_npts (h_q c))%nat -> (1 - 4 * R0 * z / q_freq (h_q c) 1) * Cmod (v 1%nat 1%nat i - s 1%nat 1%nat i)%C <=
    stop * Cmod (v 1%nat 1%nat i) + 4 * R0 * z * sqrt (1 - captured b (Cmod (v 1%nat 1%nat i) / q_freq (h_q c) 1)).
Proof. exact truncation_estimate. Qed.
Print Assumptions C171_estimate.

(** As the truncation grows, the balanced junction voltages converge, at all bias points
    together. *)
Theorem C171_converges : forall c resp R0, q_num_f (h_q c) = 1%nat -> q_num_p (h_q c) = 1%nat -> / 10000 < q_freq (h_q c) 1 ->
  (forall i (k : Z), (i < q_npts (h_q c))%nat -> Cmod (resp (q_vb (h_q c) i + IZR k * q_freq (h_q c) 1)) <= R0) -> 0 <= R0 -> 4 * R0 * Cmod (h_zt c 1%nat 1%nat) < q_freq (h_q c) 1 ->
  exists s : arr3, forall eps, 0 < eps -> exists N, forall b sb, (N <= b)%nat -> solution besselJ c resp (NbInt b) sb ->
    forall i, (i < q_npts (h_q c))%nat -> Cmod (sb 1%nat 1%nat i - s 1%nat 1%nat i)%C <= eps.
Proof. exact truncations_converge. Qed.
Print Assumptions C171_converges.

(** The circuit always has such a voltage, so that the limit is one of existing solutions. *)
Theorem C171_solutions : forall c resp R0 b, q_num_f (h_q c) = 1%nat -> q_num_p (h_q c) = 1%nat -> / 10000 < q_freq (h_q c) 1 ->
  (forall i (k : Z), (i < q_npts (h_q c))%nat -> Cmod (resp (q_vb (h_q c) i + IZR k * q_freq (h_q c) 1)) <= R0) -> 0 <= R0 -> 4 * R0 * Cmod (h_zt c 1%nat 1%nat) < q_freq (h_q c) 1 ->
  exists sb, solution besselJ c resp (NbInt b) sb.
Proof.
  intros c resp R0 b HF HP Hf HR P0 HZ. apply (solution_exists besselJ c resp (NbInt b) _ (grow_K c R0 Hf P0 HZ)). apply (Proof_Lip1HB.one_follows c resp b R0 HF HP Hf). intros i k Hi _. now apply HR.
Qed.
Print Assumptions C171_solutions.

(** A response function of unit size, behind 1/20: the voltages balanced with growing
    truncations converge, and a run with truncation 2 gives a result to which the estimate
    applies. *)
Definition turning (x : R) : C := cis x.
Example C171_case : let c := w1 (RtoC 1) (RtoC (1 / 20)) in
  (exists s : arr3, forall eps, 0 < eps -> exists N, forall b sb, (N <= b)%nat -> solution besselJ c turning (NbInt b) sb -> Cmod (sb 1%nat 1%nat 0%nat - s 1%nat 1%nat 0%nat)%C <= eps) /\
  simulates c (NbInt 2) /\ exists N v m, r_ret (harmonic_balance besselJ exact_inv c turning (NbInt 2) (Z.of_nat (S N)) (1 / 1000) None 1 "x" (RtoC (1 / 2))) = Ok (RetX v (Z.of_nat m) true).
Proof.
  cbv zeta. set (c := w1 (RtoC 1) (RtoC (1 / 20))). assert (NZ : RtoC (1 / 20) <> RtoC 0) by (intros E; apply (f_equal fst) in E; cbn in E; lra).
  assert (MZ : Cmod (h_zt c 1%nat 1%nat) = 1 / 20) by (unfold c; cbn [h_zt w1 Nat.eqb andb]; rewrite Cmod_R, Rabs_pos_eq; lra).
  assert (HR : forall x, Cmod (turning x) <= 1) by (intros x; unfold turning; rewrite cis_mod; lra). assert (FQ : q_freq (h_q c) 1 = 1) by reflexivity.
  split; [|split; [apply w1_simulates, NZ|]].
  - destruct (C171_converges c turning 1 eq_refl eq_refl) as [s Hs]; [rewrite FQ; lra|intros; apply HR|lra|rewrite MZ, FQ; lra|]. exists s. intros eps E. destruct (Hs eps E) as [N HN]. exists N. intros b sb Hb S. apply (HN b sb Hb S 0%nat). cbn. lia.
  - destruct (Properties_Lip1.C170_converges c turning 2 1 eq_refl eq_refl) as [s [_ [_ H]]]; [rewrite FQ; lra|intros; apply HR|apply w1_simulates, NZ|lra|rewrite MZ, FQ; lra|unfold c at 2; cbn [h_vt w1 Nat.eqb andb]; rewrite MZ, source_big by apply big_1; rewrite Cmod_1; lra|].
    destruct (H exact_inv 1 None (RtoC (1 / 2)) (1 / 1000) exact_inv_inverts) as [N HN]; try lra.
    + right. intros f p S. apply w1_signal in S. destruct S as [-> ->]. unfold c. cbn [h_zt w1 Nat.eqb andb]. rewrite <- RtoC_plus. intros E. apply (f_equal fst) in E. cbn [fst RtoC] in E. lra.
    + destruct (HN (Z.of_nat (S N)) ltac:(lia)) as [v [m [R1 _]]]. exists N, v, m. exact R1.
Qed.
