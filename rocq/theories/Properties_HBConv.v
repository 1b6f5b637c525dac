(** Properties C166-C168: when the junction voltages hardly change the voltages across the
    embedding impedances, the circuit has one balance and harmonic_balance finds it; this is so
    for small impedances, since the tunnelling current follows the junction voltages at most in
    proportion.  Vocabulary in Spec_HB.v and Spec_HBConv.v. *)
From Coq Require Import List ZArith Lia Bool Arith Reals Lra String.
From Coquelicot Require Import Complex.
From Verif Require Import Base Sums Round Bessel Model_QtCurrent Spec_QtCurrent Spec_QtApi Model_Circuit Model_HB Spec_HB Spec_HBConv
  Proof_HB3 Proof_QtWit Proof_HBWit Proof_HBWit2 Proof_HBWit4 Proof_HBConv Proof_HBConv2 Proof_HBLip Proof_HBLip2 Proof_HBConv3.
Import ListNotations.
Local Notation length := List.length.
Open Scope R_scope.

(** ** C166 *)
(** Every correction leaves at most the share [left_over k d] of the imbalance, and this share
    is below one. *)
Theorem C166_contracts : forall J c resp num_b k d v v' i, follows J c resp num_b k -> 0 <= k < 1 / 4 -> 0 < d <= 1 ->
  corrected J c resp num_b d v v' -> (i < q_npts (h_q c))%nat ->
  imbalance J c resp num_b v' i <= left_over k d * imbalance J c resp num_b v i /\ 0 <= left_over k d < 1.
Proof. intros J c resp num_b k d v v' i F K D H Hi. split; [apply (contracts J c resp num_b k F d v v' i Hi K); [lra|assumption]|now apply left_over_bound]. Qed.
Print Assumptions C166_contracts.

(** There is one set of junction voltages that balances the circuit. *)
Theorem C166_one_solution : forall J c resp num_b k, follows J c resp num_b k -> 0 <= k < 1 ->
  exists s, solution J c resp num_b s /\ forall s', solution J c resp num_b s' -> agree (h_q c) s s'.
Proof.
  intros J c resp num_b k F K. destruct (solution_exists J c resp num_b k K F) as [s S]. exists s. split; [exact S|]. intros s' S'. exact (solution_unique J c resp num_b k F s s' K S S').
Qed.
Print Assumptions C166_one_solution.

(** From any initial voltages and with any target, the run reports convergence within a number
    of corrections that does not depend on the allowed number of iterations. *)
Theorem C166_converges : forall J inv c resp num_b k s d vj0 zj mu stop,
  simulates c num_b -> inverts inv -> follows J c resp num_b k -> 0 <= k < 1 / 4 -> 0 < d <= 1 -> can_start c vj0 zj ->
  solution J (driven c) resp num_b s -> 0 < mu -> everywhere (h_q c) (fun f p i => mu <= Cmod (s f p i)) -> 0 < stop ->
  exists N, forall max_it, (Z.of_nat N < max_it)%Z ->
    let call := harmonic_balance J inv c resp num_b max_it stop vj0 d "x" zj in
    exists v m, r_ret call = Ok (RetX v (Z.of_nat m) true) /\ (m <= N)%nat /\ corrections J (r_cct call) resp num_b d m (start c vj0 zj) v.
Proof. exact reaches. Qed.
Print Assumptions C166_converges.

(** The number of corrections: those after which the share [left_over k d] per correction has
    brought the imbalance of the initial voltages down far enough. *)
Theorem C166_how_many : forall J inv c resp num_b k s d vj0 zj mu stop N max_it,
  simulates c num_b -> inverts inv -> follows J c resp num_b k -> 0 <= k < 1 / 4 -> 0 < d <= 1 -> can_start c vj0 zj ->
  solution J (driven c) resp num_b s -> 0 < mu -> everywhere (h_q c) (fun f p i => 2 * mu <= Cmod (s f p i)) -> 0 < stop ->
  (forall i, (i < q_npts (h_q c))%nat -> left_over k d ^ N * imbalance J (driven c) resp num_b (start c vj0 zj) i <= Rmin stop (1 - k) * mu) ->
  (Z.of_nat N < max_it)%Z ->
  exists v m, r_ret (harmonic_balance J inv c resp num_b max_it stop vj0 d "x" zj) = Ok (RetX v (Z.of_nat m) true) /\ (m <= N)%nat.
Proof.
  intros J inv c resp num_b k s d vj0 zj mu stop N max_it HS INV F K D CS SOL MU HMU ST HN HM. apply driven_solution in SOL.
  destruct (run_converges J inv c resp num_b k (proj1 HS) INV F K d s vj0 zj mu N HS D CS SOL MU HMU stop ST) with (max_it := max_it) as [v [m [R1 [R2 _]]]]; [|assumption|eauto].
  intros i Hi. rewrite <- driven_imbalance. now apply HN.
Qed.
Print Assumptions C166_how_many.

(** A converged run is near the solution. *)
Theorem C166_accurate : forall J inv c resp num_b k s max_it stop vj0 d zj v it,
  simulates c num_b -> inverts inv -> follows J c resp num_b k -> 0 <= k < 1 -> solution J (driven c) resp num_b s -> (0 <= max_it)%Z ->
  r_ret (harmonic_balance J inv c resp num_b max_it stop vj0 d "x" zj) = Ok (RetX v it true) ->
  everywhere (h_q c) (fun f p i => v f p i <> RtoC 0) ->
  forall i, (i < q_npts (h_q c))%nat -> (1 - k) * distance (h_q c) v s i <= stop * total (h_q c) (fun f p => Cmod (v f p i)).
Proof. exact accurate. Qed.
Print Assumptions C166_accurate.

(** A junction that conducts like a unit resistor, driven with 1 behind a resistor of 1/10: the
    voltage across that resistor follows with a tenth, the solution is 10/11, and the run
    converges from 5 with half corrections. *)
Example C166_case : simulates wc (NbInt 1) /\ follows J_lin wc ohm (NbInt 1) (1 / 10) /\ solution J_lin (driven wc) ohm (NbInt 1) wc_solution /\
  exists N v m, let call := harmonic_balance J_lin exact_inv wc ohm (NbInt 1) (Z.of_nat (S N)) (1 / 1000) (Some (fun _ _ _ => RtoC 5)) (1 / 2) "x" (RtoC 1) in
    r_ret call = Ok (RetX v (Z.of_nat m) true) /\ (m <= N)%nat /\ imbalance J_lin wc ohm (NbInt 1) (fun _ _ _ => RtoC 5) 0 = 9 / 2.
Proof.
  split; [exact wc_simulates|]. split; [exact wc_follows|]. split; [exact wc_solved|].
  destruct (C166_converges J_lin exact_inv wc ohm (NbInt 1) (1 / 10) wc_solution (1 / 2) (Some (fun _ _ _ => RtoC 5)) (RtoC 1) (10 / 11) (1 / 1000) wc_simulates exact_inv_inverts wc_follows) as [N HN]; try lra.
  - left. discriminate.
  - exact wc_solved.
  - intros f p i _ _. unfold wc_solution. rewrite Cmod_R. apply Rle_abs.
  - destruct (HN (Z.of_nat (S N)) ltac:(lia)) as [v [m [R1 [R2 _]]]]. exists N, v, m. cbv zeta. split; [exact R1|]. split; [exact R2|].
    unfold imbalance. rewrite wc_total. unfold residual_at, wc. cbn [h_q h_vt h_zt w1 Nat.eqb andb]. rewrite ohm_current. rewrite <- !RtoC_mult, <- !RtoC_minus, Cmod_R, Rabs_left; lra.
Qed.

(** ** C167 *)
(** For any tones, bias voltages, response function and truncations there is a bound such that
    circuits with smaller impedances have one solution, and harmonic_balance reports
    convergence from any initial voltages. *)
Theorem C167_small_impedances : forall q resp num_b, args_ok q num_b -> exists L, 0 < L /\ forall c, h_q c = q -> simulates c num_b ->
  (forall f p, signal q f p -> L * Cmod (h_zt c f p) <= 1 /\ L * Cmod (h_zt c f p) <= Cmod (source (h_vt c f p))) ->
  exists s, solution besselJ (driven c) resp num_b s /\ (forall s', solution besselJ (driven c) resp num_b s' -> agree q s s') /\
    forall inv d vj0 zj stop, inverts inv -> 0 < d <= 1 -> can_start c vj0 zj -> 0 < stop -> exists N, forall max_it, (Z.of_nat N < max_it)%Z ->
      exists v m, r_ret (harmonic_balance besselJ inv c resp num_b max_it stop vj0 d "x" zj) = Ok (RetX v (Z.of_nat m) true) /\ (m <= N)%nat.
Proof. exact small_impedances. Qed.
Print Assumptions C167_small_impedances.

(** One tone of a junction with the Bessel functions themselves and a response that is not
    linear, driven with 1 behind some positive resistance. *)
Example C167_case : exists r, 0 < r /\ exists N, forall max_it, (Z.of_nat N < max_it)%Z ->
  exists v m, r_ret (harmonic_balance besselJ exact_inv (w1 (RtoC 1) (RtoC r)) (fun x => (x ^ 2, x ^ 3)) (NbInt 1) max_it (1 / 1000) None 1 "x" (RtoC (1 / 2))) = Ok (RetX v (Z.of_nat m) true) /\ (m <= N)%nat.
Proof.
  destruct (C167_small_impedances (wit_cct 1) (fun x => (x ^ 2, x ^ 3)) (NbInt 1) (w1_args (RtoC 1) (RtoC 1))) as [L [L0 H]]. exists (/ L). assert (R0 := Rinv_0_lt_compat L L0). split; [assumption|].
  assert (NZ : RtoC (/ L) <> RtoC 0) by (intros E; apply (f_equal fst) in E; cbn in E; lra).
  destruct (H (w1 (RtoC 1) (RtoC (/ L))) eq_refl (w1_simulates _ _ NZ)) as [s [_ [_ HN]]].
  - intros f p S. apply w1_signal in S. destruct S as [-> ->]. cbn [h_zt h_vt w1 Nat.eqb andb]. rewrite source_big by apply big_1. rewrite Cmod_1, Cmod_R, Rabs_pos_eq, Rinv_r by lra. lra.
  - apply (HN exact_inv 1 None (RtoC (1 / 2)) (1 / 1000) exact_inv_inverts); try lra. right. intros f p S. apply w1_signal in S. destruct S as [-> ->]. cbn [h_zt w1 Nat.eqb andb]. rewrite <- RtoC_plus. intros E. apply (f_equal fst) in E. cbn [fst RtoC] in E. lra.
Qed.

(** ** C168 *)
(** The tunnelling currents that a call returns are bounded whatever the junction voltages, and
    change at most in proportion to them. *)
Theorem C168_proportion : forall q resp num_b, args_ok q num_b -> exists L, 0 < L /\ forall v w fl rv rw,
  qtcurrent besselJ v q resp (FList fl) num_b None = Ok (QRows rv) -> qtcurrent besselJ w q resp (FList fl) num_b None = Ok (QRows rw) ->
  forall m i, (m < length fl)%nat -> (i < q_npts q)%nat ->
  Cmod (nth i (nth m rv []) (RtoC 0)) <= L /\ Cmod (nth i (nth m rv []) (RtoC 0) - nth i (nth m rw []) (RtoC 0))%C <= L * distance q v w i.
Proof. exact qt_lip. Qed.
Print Assumptions C168_proportion.

(** The coefficients of a tone follow its voltage with no more than one over the frequency. *)
Theorem C168_coefficients : forall v w f p n, 0 < p * f ->
  Cmod (jacobi_anger besselJ (Cmod v / (p * f)) (angle v) n) <= 1 /\
  Cmod (jacobi_anger besselJ (Cmod v / (p * f)) (angle v) n - jacobi_anger besselJ (Cmod w / (p * f)) (angle w) n)%C <= Cmod (v - w)%C / (p * f).
Proof. intros v w f p n H. split; [apply coef_le1|now apply drive_lip]. Qed.
Print Assumptions C168_coefficients.

(** Two tones, two harmonics, three bias points. *)
Definition lip_cct : qcct :=
  {| q_num_f := 2; q_num_p := 2; q_npts := 3; q_freq := fun f => match f with 1%nat => 3 / 10 | _ => 35 / 100 end; q_vb := fun i => INR i |}.
Example C168_case : args_ok lip_cct (NbTuple [5%nat; 3%nat]) /\
  forall v, exists rv, qtcurrent besselJ v lip_cct (fun x => (x ^ 2, x ^ 3)) (FList [0; 3 / 10; 5 / 100]) (NbTuple [5%nat; 3%nat]) None = Ok (QRows rv).
Proof.
  assert (A : args_ok lip_cct (NbTuple [5%nat; 3%nat])). { unfold args_ok; simpl. repeat split; try lia. intros f Hf. destruct f as [|[|f]]; lra. }
  split; [exact A|]. intros v. eexists. exact (Proof_QtCurrent2.qtcurrent_spec besselJ v lip_cct _ (FList _) _ None A I).
Qed.
