(** The Jacobi-Anger expansion, and the phase factor of several harmonics. *)
From Coq Require Import List ZArith Bool Reals Lia Lra Psatz.
From Coquelicot Require Import Coquelicot.
From Verif Require Import Base Sums Round Bessel Model_QtCurrent Spec_QtCurrent Spec_QtApi Proof_QtCurrent Proof_QtCurrent2 Proof_QtWit Proof_QtSym Proof_QtApi Proof_Bessel Proof_Weights Proof_Decay Proof_Converge.
Import ListNotations.
Open Scope R_scope.
Local Notation length := List.length.
Local Notation Forall := List.Forall.

(** ** Derivatives of the Bessel functions of any integer order *)
Lemma JZ_neg n x : besselZ besselJ (- n) x = (-1) ^ Z.abs_nat n * besselZ besselJ n x.
Proof.
  unfold besselZ. destruct (Z.ltb_spec (- n) 0), (Z.ltb_spec n 0); try lia.
  - rewrite Z.opp_involutive. replace (Z.to_nat n) with (Z.abs_nat n) by lia. reflexivity.
  - replace (Z.to_nat (- n)) with (Z.abs_nat n) by lia. rewrite <- Rmult_assoc, <- Rpow_mult_distr. replace (-1 * -1) with 1 by ring. rewrite pow1. ring.
  - assert (n = 0)%Z as -> by lia. cbn. ring.
Qed.
Lemma JZ_nat n x : besselZ besselJ (Z.of_nat n) x = besselJ n x.
Proof. unfold besselZ. destruct (Z.ltb_spec (Z.of_nat n) 0); [lia|]. now rewrite Nat2Z.id. Qed.
Lemma JZ_derive_pos n x : is_derive (besselZ besselJ (Z.of_nat n)) x ((besselZ besselJ (Z.of_nat n - 1) x - besselZ besselJ (Z.of_nat n + 1) x) / 2).
Proof.
  apply is_derive_ext with (besselJ n). { intros t. now rewrite JZ_nat. }
  destruct n as [|n].
  - replace (Z.of_nat 0 - 1)%Z with (- 1)%Z by lia. rewrite (JZ_neg 1). replace (Z.of_nat 0 + 1)%Z with (Z.of_nat 1) by lia. change 1%Z with (Z.of_nat 1) at 2. rewrite JZ_nat. evar_last; [apply J_derive_0|]. change (Z.abs_nat 1) with 1%nat. field.
  - replace (Z.of_nat (S n) - 1)%Z with (Z.of_nat n) by lia. replace (Z.of_nat (S n) + 1)%Z with (Z.of_nat (S (S n))) by lia. rewrite !JZ_nat. apply J_derive.
Qed.
Lemma JZ_derive n x : is_derive (besselZ besselJ n) x ((besselZ besselJ (n - 1) x - besselZ besselJ (n + 1) x) / 2).
Proof.
  destruct (Z_le_gt_dec 0 n) as [H|H].
  - replace n with (Z.of_nat (Z.to_nat n)) by lia. apply JZ_derive_pos.
  - set (m := Z.to_nat (- n)). replace n with (- Z.of_nat m)%Z by lia. apply is_derive_ext with (fun t => (-1) ^ m * besselZ besselJ (Z.of_nat m) t).
    { intros t. rewrite JZ_neg. now rewrite Zabs2Nat.id. }
    replace (- Z.of_nat m - 1)%Z with (- (Z.of_nat m + 1))%Z by lia. replace (- Z.of_nat m + 1)%Z with (- (Z.of_nat m - 1))%Z by lia. rewrite !JZ_neg.
    replace (Z.abs_nat (Z.of_nat m + 1)) with (S m) by lia. replace (Z.abs_nat (Z.of_nat m - 1)) with (m - 1)%nat by lia. evar_last; [apply is_derive_scal, JZ_derive_pos|]. change scal with Rmult. assert (M : (1 <= m)%nat) by lia.
    destruct m as [|m]; [lia|]. replace (S m - 1)%nat with m by lia. cbn [pow]. field.
Qed.

(** ** One harmonic *)
Section telescope.
Variable e : Z -> R -> R.
Hypothesis De : forall n x, is_derive (e n) x ((e (n - 1)%Z x - e (n + 1)%Z x) / 2).
Hypothesis Be : forall n x, Rabs (e n x) <= 1.
Definition total (N : nat) (x : R) : R := rsum (sym N) (fun n => besselZ besselJ n x * e n x).
Definition edge (n : Z) (x : R) : R := besselZ besselJ (n + 1) x * e n x + besselZ besselJ n x * e (n + 1)%Z x.
Lemma term_derive n x : is_derive (fun x => besselZ besselJ n x * e n x) x ((edge (n - 1) x - edge n x) / 2).
Proof.
  evar_last; [apply (is_derive_mult (besselZ besselJ n) (e n) x _ _ (JZ_derive n x) (De n x)); intros; apply Rmult_comm|]. unfold edge. replace (n - 1 + 1)%Z with n by lia. change plus with Rplus. change mult with Rmult. field.
Qed.
Lemma total_derive N x : is_derive (total N) x ((edge (- Z.of_nat N - 1) x - edge (Z.of_nat N) x) / 2).
Proof.
  induction N as [|N IH].
  - apply is_derive_ext with (fun x => besselZ besselJ 0 x * e 0%Z x). { intros t. unfold total. now rewrite rsum_sym_0. } apply term_derive.
  - apply is_derive_ext with (fun x => total N x + (besselZ besselJ (Z.of_nat (S N)) x * e (Z.of_nat (S N)) x + besselZ besselJ (- Z.of_nat (S N)) x * e (- Z.of_nat (S N))%Z x)).
    { intros t. unfold total. now rewrite rsum_sym_S. }
    evar_last. { apply @is_derive_plus; [exact IH|]. apply @is_derive_plus; apply term_derive. }
    change plus with Rplus. replace (Z.of_nat (S N) - 1)%Z with (Z.of_nat N) by lia. replace (- Z.of_nat (S N))%Z with (- Z.of_nat N - 1)%Z by lia. field.
Qed.
Lemma edge_small x y q n N : 0 < q <= 1 -> Rabs y <= Rabs x -> (N <= Z.abs_nat n)%nat -> (N <= Z.abs_nat (n + 1))%nat -> Rabs (edge n y) <= 2 * decay x q * q ^ N.
Proof.
  intros Q Y L1 L2. unfold edge. eapply Rle_trans; [apply Rabs_triang|]. rewrite !Rabs_mult. assert (D := decay_pos x q).
  assert (A1 := JZ_decay x y q (n + 1) (proj1 Q) Y). assert (A2 := JZ_decay x y q n (proj1 Q) Y). assert (E1 := Be n y). assert (E2 := Be (n + 1) y).
  assert (P1 : pw q (n + 1) <= q ^ N) by now apply pow_decr. assert (P2 : pw q n <= q ^ N) by now apply pow_decr.
  assert (X1 := Rabs_pos (besselZ besselJ (n + 1) y)). assert (X2 := Rabs_pos (besselZ besselJ n y)). assert (Y1 := Rabs_pos (e n y)). assert (Y2 := Rabs_pos (e (n + 1) y)). nra.
Qed.
Lemma total_0 N : total N 0 = e 0%Z 0.
Proof.
  unfold total. induction N as [|N IH]. { rewrite rsum_sym_0. change 0%Z with (Z.of_nat 0) at 1. rewrite JZ_nat, besselJ_0_0. ring. }
  rewrite rsum_sym_S, IH, JZ_neg, JZ_nat, besselJ_S_0. ring.
Qed.
Lemma total_near N x q : 0 < q <= 1 -> Rabs (total N x - e 0%Z 0) <= 2 * Rabs x * decay x q * q ^ N.
Proof.
  intros Q. rewrite <- (total_0 N). destruct (MVT_gen (total N) 0 x (fun x => (edge (- Z.of_nat N - 1) x - edge (Z.of_nat N) x) / 2)) as [c [HC E]].
  { intros y _. apply total_derive. } { intros y _. apply continuity_pt_filterlim, (ex_derive_continuous (total N) y). eexists. apply total_derive. }
  rewrite E. assert (C1 : Rabs c <= Rabs x). { unfold Rmin, Rmax in HC. destruct (Rle_dec 0 x); unfold Rabs; repeat destruct Rcase_abs; lra. }
  assert (E1 := edge_small x c q (- Z.of_nat N - 1) N Q C1 ltac:(lia) ltac:(lia)). assert (E2 := edge_small x c q (Z.of_nat N) N Q C1 ltac:(lia) ltac:(lia)).
  rewrite Rabs_mult, Rminus_0_r. assert (X := Rabs_pos x). assert (B : Rabs ((edge (- Z.of_nat N - 1) c - edge (Z.of_nat N) c) / 2) <= 2 * decay x q * q ^ N).
  { unfold Rdiv. rewrite Rabs_mult, (Rabs_pos_eq (/ 2)) by lra. unfold Rminus. assert (T := Rabs_triang (edge (- Z.of_nat N - 1) c) (- edge (Z.of_nat N) c)). rewrite Rabs_Ropp in T. lra. }
  nra.
Qed.
End telescope.

Lemma cos_family theta n x : is_derive (fun x => cos (IZR n * theta - x * sin theta)) x ((cos (IZR (n - 1) * theta - x * sin theta) - cos (IZR (n + 1) * theta - x * sin theta)) / 2).
Proof.
  evar_last; [auto_derive; [exact I|reflexivity]|]. rewrite minus_IZR, plus_IZR. set (psi := IZR n * theta - x * sin theta).
  replace ((IZR n - 1) * theta - x * sin theta) with (psi - theta) by (unfold psi; ring). replace ((IZR n + 1) * theta - x * sin theta) with (psi + theta) by (unfold psi; ring). rewrite cos_minus, cos_plus.
  replace (IZR n * theta + - (x * sin theta)) with psi by (unfold psi; ring). field.
Qed.
Lemma sin_family theta n x : is_derive (fun x => sin (IZR n * theta - x * sin theta)) x ((sin (IZR (n - 1) * theta - x * sin theta) - sin (IZR (n + 1) * theta - x * sin theta)) / 2).
Proof.
  evar_last; [auto_derive; [exact I|reflexivity]|]. rewrite minus_IZR, plus_IZR. set (psi := IZR n * theta - x * sin theta).
  replace ((IZR n - 1) * theta - x * sin theta) with (psi - theta) by (unfold psi; ring). replace ((IZR n + 1) * theta - x * sin theta) with (psi + theta) by (unfold psi; ring). rewrite sin_minus, sin_plus.
  replace (IZR n * theta + - (x * sin theta)) with psi by (unfold psi; ring). field.
Qed.
Lemma cos_le_1 x : Rabs (cos x) <= 1. Proof. pose proof (COS_bound x). unfold Rabs. destruct Rcase_abs; lra. Qed.
Lemma sin_le_1 x : Rabs (sin x) <= 1. Proof. pose proof (SIN_bound x). unfold Rabs. destruct Rcase_abs; lra. Qed.

(** sum_{|n| <= N} J_n(x) e^(i n theta) approaches e^(i x sin theta). *)
Theorem jacobi_anger_expansion N x theta q : 0 < q <= 1 ->
  Cmod (Cminus (csum (sym N) (fun n => Cmult (RtoC (besselZ besselJ n x)) (cis (IZR n * theta)))) (cis (x * sin theta))) <= 4 * Rabs x * decay x q * q ^ N.
Proof.
  intros Q. set (S := csum (sym N) (fun n => Cmult (RtoC (besselZ besselJ n x)) (cis (IZR n * theta)))).
  assert (U := total_near (fun n x => cos (IZR n * theta - x * sin theta)) (cos_family theta) (fun n x => cos_le_1 _) N x q Q).
  assert (V := total_near (fun n x => sin (IZR n * theta - x * sin theta)) (sin_family theta) (fun n x => sin_le_1 _) N x q Q).
  cbv beta in U, V. rewrite !Rmult_0_l, Rminus_0_r in U, V. rewrite cos_0 in U. rewrite sin_0 in V.
  assert (E : Cmult S (cis (- (x * sin theta))) = (total (fun n x => cos (IZR n * theta - x * sin theta)) N x, total (fun n x => sin (IZR n * theta - x * sin theta)) N x)).
  { unfold S. rewrite <- csum_scal_r. unfold total. rewrite (surjective_pairing (csum _ _)). f_equal.
    - change (fst ?z) with (Re z). rewrite Re_rsum. apply rsum_ext. intros n _. rewrite <- Cmult_assoc, <- cis_add. change (cis (IZR n * theta + - (x * sin theta))) with (cis (IZR n * theta - x * sin theta)). unfold cis, Cmult, RtoC, Re, Im; cbn [fst snd]; ring.
    - change (snd ?z) with (Im z). rewrite Im_rsum. apply rsum_ext. intros n _. rewrite <- Cmult_assoc, <- cis_add. change (cis (IZR n * theta + - (x * sin theta))) with (cis (IZR n * theta - x * sin theta)). unfold cis, Cmult, RtoC, Re, Im; cbn [fst snd]; ring. }
  replace (Cminus S (cis (x * sin theta))) with (Cmult (cis (x * sin theta)) (Cminus (Cmult S (cis (- (x * sin theta)))) (RtoC 1))).
  2:{ transitivity (Cminus (Cmult S (Cmult (cis (- (x * sin theta))) (cis (x * sin theta)))) (cis (x * sin theta))); [ring|]. rewrite cis_inv. ring. }
  rewrite Cmod_mult, Cmod_cis, Rmult_1_l, E. clear E. revert U V. generalize (total (fun n x => cos (IZR n * theta - x * sin theta)) N x), (total (fun n x => sin (IZR n * theta - x * sin theta)) N x). intros u v U V. unfold Cminus, Cplus, Copp, RtoC. cbn [fst snd]. eapply Rle_trans; [apply Cmod_parts|]. rewrite Ropp_0, Rplus_0_r. unfold Rminus in U, V. rewrite Ropp_0, Rplus_0_r in V. lra.
Qed.
