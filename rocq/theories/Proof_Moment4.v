(** The fourth moment of the squared Bessel functions. *)
From Coq Require Import List ZArith Lia Bool Arith Reals Lra Psatz.
From Coquelicot Require Import Coquelicot.
From Verif Require Import Base Sums Bessel Model_QtCurrent Spec_QtCurrent Spec_Power Proof_QtCurrent Proof_QtWit Proof_Bessel Proof_Bessel2 Proof_Weights Proof_Power Proof_Power2 Proof_Power3 Proof_JacobiAnger.
From Verif Require Import Proof_Decay.
Import ListNotations.
Open Scope R_scope.
Local Notation JZ := (besselZ besselJ).

(** ** Sums of products of shifted Bessel functions *)
Section Cross.
Variables c d : Z.
Definition cross (N : nat) (x : R) : R := rsum (sym N) (fun n => JZ (n + c) x * JZ (n + d) x).
Definition side (n : Z) (x : R) : R := JZ (n + 1 + c) x * JZ (n + d) x + JZ (n + c) x * JZ (n + 1 + d) x.
Lemma cterm_derive n x : is_derive (fun x => JZ (n + c) x * JZ (n + d) x) x ((side (n - 1) x - side n x) / 2).
Proof.
  evar_last; [apply (is_derive_mult (JZ (n + c)) (JZ (n + d)) x _ _ (JZ_derive _ x) (JZ_derive _ x)); intros; apply Rmult_comm|]. unfold side. change plus with Rplus. change mult with Rmult.
  replace (n - 1 + 1 + c)%Z with (n + c)%Z by lia. replace (n - 1 + 1 + d)%Z with (n + d)%Z by lia. replace (n - 1 + c)%Z with (n + c - 1)%Z by lia. replace (n - 1 + d)%Z with (n + d - 1)%Z by lia.
  replace (n + 1 + c)%Z with (n + c + 1)%Z by lia. replace (n + 1 + d)%Z with (n + d + 1)%Z by lia. field.
Qed.
Lemma cross_derive N x : is_derive (cross N) x ((side (- Z.of_nat N - 1) x - side (Z.of_nat N) x) / 2).
Proof.
  induction N as [|N IH].
  - apply is_derive_ext with (fun x => JZ (0 + c) x * JZ (0 + d) x). { intros t. unfold cross. now rewrite rsum_sym_0. } apply cterm_derive.
  - apply is_derive_ext with (fun x => cross N x + (JZ (Z.of_nat (S N) + c) x * JZ (Z.of_nat (S N) + d) x + JZ (- Z.of_nat (S N) + c) x * JZ (- Z.of_nat (S N) + d) x)).
    { intros t. unfold cross. now rewrite rsum_sym_S. }
    evar_last. { apply @is_derive_plus; [exact IH|]. apply @is_derive_plus; apply cterm_derive. }
    change plus with Rplus. replace (Z.of_nat (S N) - 1)%Z with (Z.of_nat N) by lia. replace (- Z.of_nat (S N))%Z with (- Z.of_nat N - 1)%Z by lia. field.
Qed.
Lemma JZ_1 n x : Rabs (JZ n x) <= 1.
Proof.
  assert (H : JZ n x ^ 2 <= 1). { rewrite besselZ_sq. destruct (Z.abs_nat n) as [|m]; [|apply J_small]. assert (S := squares_le_1 0 x). exact S. }
  apply Rsqr_incr_0_var; [|lra]. rewrite <- Rsqr_abs, Rsqr_1, Rsqr_pow2. exact H.
Qed.
Lemma side_small x y n M : Rabs y <= Rabs x -> (M <= Z.abs_nat (n + 1 + c))%nat -> (M <= Z.abs_nat (n + c))%nat -> Rabs (side n y) <= 2 * (decay x (/ 2) * (/ 2) ^ M).
Proof.
  intros Y L1 L2. unfold side. eapply Rle_trans; [apply Rabs_triang|]. rewrite !Rabs_mult. assert (D := decay_pos x (/ 2)).
  assert (A1 := JZ_decay x y (/ 2) (n + 1 + c) ltac:(lra) Y). assert (A2 := JZ_decay x y (/ 2) (n + c) ltac:(lra) Y). assert (E1 := JZ_1 (n + d) y). assert (E2 := JZ_1 (n + 1 + d) y).
  assert (P1 : pw (/ 2) (n + 1 + c) <= (/ 2) ^ M) by (apply pow_decr; [lra|exact L1]). assert (P2 : pw (/ 2) (n + c) <= (/ 2) ^ M) by (apply pow_decr; [lra|exact L2]).
  assert (X1 := Rabs_pos (JZ (n + 1 + c) y)). assert (X2 := Rabs_pos (JZ (n + c) y)). assert (Y1 := Rabs_pos (JZ (n + d) y)). assert (Y2 := Rabs_pos (JZ (n + 1 + d) y)). nra.
Qed.
Lemma JZ_at_0 n : JZ n 0 = if (n =? 0)%Z then 1 else 0.
Proof.
  destruct (Z.eqb_spec n 0) as [->|H]. { unfold besselZ. cbn -[besselJ]. apply besselJ_0_0. }
  unfold besselZ. destruct (Z.ltb_spec n 0). { replace (Z.to_nat (- n)) with (S (Z.to_nat (- n - 1))) by lia. rewrite besselJ_S_0. ring. } replace (Z.to_nat n) with (S (Z.to_nat (n - 1))) by lia. apply besselJ_S_0.
Qed.
Lemma cross_0 N : (Z.abs_nat c <= N)%nat -> cross N 0 = if (c =? d)%Z then 1 else 0.
Proof.
  intros H. unfold cross. rewrite (rsum_ext _ _ (fun n => if (n =? - c)%Z then (if (c =? d)%Z then 1 else 0) else 0)).
  2:{ intros n _. rewrite !JZ_at_0. destruct (Z.eqb_spec (n + c) 0), (Z.eqb_spec (n + d) 0), (Z.eqb_spec n (- c)), (Z.eqb_spec c d); try lia; ring. }
  set (v := if (c =? d)%Z then 1 else 0). clearbody v. clear d. revert c H. intros c H. induction N as [|N IH].
  - rewrite rsum_sym_0. destruct (Z.eqb_spec 0 (- c)); [reflexivity|lia].
  - rewrite rsum_sym_S. destruct (Nat.eq_dec (Z.abs_nat c) (S N)) as [E|E].
    + rewrite (rsum_ext _ _ (fun _ => 0)). 2:{ intros n Hn. apply in_sym in Hn. destruct (Z.eqb_spec n (- c)); [lia|reflexivity]. }
      assert (Z0 : forall l : list Z, rsum l (fun _ => 0) = 0) by (induction l as [|a l IH']; cbn [rsum]; [reflexivity|rewrite IH'; ring]). rewrite Z0.
      destruct (Z.eqb_spec (Z.of_nat (S N)) (- c)), (Z.eqb_spec (- Z.of_nat (S N)) (- c)); try lia; ring.
    + rewrite IH by lia. destruct (Z.eqb_spec (Z.of_nat (S N)) (- c)), (Z.eqb_spec (- Z.of_nat (S N)) (- c)); try lia; ring.
Qed.
Lemma cross_near M x : let N := (M + S (Z.abs_nat c))%nat in Rabs (cross N x - (if (c =? d)%Z then 1 else 0)) <= 2 * Rabs x * decay x (/ 2) * (/ 2) ^ M.
Proof.
  intros N. rewrite <- (cross_0 N) by lia. destruct (MVT_gen (cross N) 0 x (fun x => (side (- Z.of_nat N - 1) x - side (Z.of_nat N) x) / 2)) as [z [HC E]].
  { intros y _. apply cross_derive. } { intros y _. apply continuity_pt_filterlim, (ex_derive_continuous (cross N) y). eexists. apply cross_derive. }
  rewrite E. assert (C1 : Rabs z <= Rabs x). { unfold Rmin, Rmax in HC. destruct (Rle_dec 0 x); unfold Rabs; repeat destruct Rcase_abs; lra. }
  assert (E1 := side_small x z (- Z.of_nat N - 1) M C1 ltac:(lia) ltac:(lia)). assert (E2 := side_small x z (Z.of_nat N) M C1 ltac:(lia) ltac:(lia)).
  rewrite Rabs_mult, Rminus_0_r. assert (X := Rabs_pos x). assert (B : Rabs ((side (- Z.of_nat N - 1) z - side (Z.of_nat N) z) / 2) <= 2 * (decay x (/ 2) * (/ 2) ^ M)).
  { unfold Rdiv. rewrite Rabs_mult, (Rabs_pos_eq (/ 2)) by lra. unfold Rminus. assert (T := Rabs_triang (side (- Z.of_nat N - 1) z) (- side (Z.of_nat N) z)). rewrite Rabs_Ropp in T. lra. }
  replace (2 * Rabs x * decay x (/ 2) * (/ 2) ^ M) with ((2 * (decay x (/ 2) * (/ 2) ^ M)) * Rabs x) by ring. apply Rmult_le_compat_r; assumption.
Qed.
Lemma cross_approach x : approaches (fun b => cross b x) (if (c =? d)%Z then 1 else 0).
Proof.
  intros eps He. set (K := 2 * Rabs x * decay x (/ 2)). assert (K0 : 0 <= K) by (unfold K; pose proof (Rabs_pos x); pose proof (decay_pos x (/ 2)); apply Rmult_le_pos; lra).
  destruct (pow_lt_1_zero (/ 2) ltac:(rewrite Rabs_pos_eq; lra) (eps / (K + 1)) ltac:(apply Rdiv_lt_0_compat; lra)) as [M HM].
  exists (M + S (Z.abs_nat c))%nat. intros b Hb. assert (H := cross_near (b - S (Z.abs_nat c)) x). cbv zeta in H. replace (b - S (Z.abs_nat c) + S (Z.abs_nat c))%nat with b in H by lia. fold K in H.
  eapply Rle_lt_trans; [exact H|]. specialize (HM (b - S (Z.abs_nat c))%nat ltac:(lia)). rewrite Rabs_pos_eq in HM by (apply pow_le; lra).
  set (p := (/ 2) ^ (b - S (Z.abs_nat c))) in *. assert (0 < p) by (apply pow_lt; lra).
  assert (Q : p * (K + 1) < eps). { apply Rmult_lt_reg_r with (/ (K + 1)); [apply Rinv_0_lt_compat; lra|]. replace (p * (K + 1) * / (K + 1)) with p by (field; lra). exact HM. } nra.
Qed.
End Cross.

Lemma approaches_plus u v x y : approaches u x -> approaches v y -> approaches (fun b => u b + v b) (x + y).
Proof.
  intros H1 H2 eps He. destruct (H1 (eps / 2)) as [N1 HN1]; [lra|]. destruct (H2 (eps / 2)) as [N2 HN2]; [lra|]. exists (Nat.max N1 N2). intros b Hb. specialize (HN1 b ltac:(lia)). specialize (HN2 b ltac:(lia)).
  replace (u b + v b - (x + y)) with ((u b - x) + (v b - y)) by ring. eapply Rle_lt_trans; [apply Rabs_triang|]. lra.
Qed.
Lemma approaches_const c : approaches (fun _ => c) c. Proof. intros eps He. exists O. intros b _. replace (c - c) with 0 by ring. now rewrite Rabs_R0. Qed.
Lemma approaches_rsum {A} (l : list A) (u : A -> nat -> R) (x : A -> R) : (forall a, approaches (u a) (x a)) -> approaches (fun b => rsum l (fun a => u a b)) (rsum l x).
Proof. intros H. induction l as [|a l IH]; cbn [rsum]; [apply approaches_const|]. now apply approaches_plus. Qed.
Lemma rsum_swap {A B} (l : list A) (m : list B) f : rsum l (fun a => rsum m (fun b => f a b)) = rsum m (fun b => rsum l (fun a => f a b)).
Proof.
  induction l as [|a l IH]; cbn [rsum]. { induction m as [|b m IH]; cbn [rsum]; [reflexivity|]. rewrite <- IH. ring. } rewrite IH, <- rsum_plus. reflexivity.
Qed.
(** The square of a combination of shifted Bessel functions. *)
Lemma combination (l : list Z) (s : Z -> R) x : approaches (fun b => rsum (sym b) (fun n => rsum l (fun c => s c * JZ (n + c) x) ^ 2)) (rsum l (fun c => rsum l (fun d => s c * s d * (if (c =? d)%Z then 1 else 0)))).
Proof.
  apply approaches_ext with (fun b => rsum l (fun c => rsum l (fun d => s c * s d * cross c d b x))).
  - intros b. unfold cross. rewrite (rsum_ext (sym b) (fun n => rsum l (fun c => s c * JZ (n + c) x) ^ 2) (fun n => rsum l (fun c => rsum l (fun d => s c * s d * (JZ (n + c) x * JZ (n + d) x))))).
    2:{ intros n _. simpl pow. rewrite Rmult_1_r. rewrite <- rsum_scal. apply rsum_ext. intros c _. rewrite Rmult_comm, <- rsum_scal. apply rsum_ext. intros d _. ring. }
    symmetry. rewrite rsum_swap. apply rsum_ext. intros c _. rewrite rsum_swap. apply rsum_ext. intros d _. now rewrite <- rsum_scal.
  - apply (approaches_rsum l (fun c b => rsum l (fun d => s c * s d * cross c d b x))). intros c. apply (approaches_rsum l (fun d b => s c * s d * cross c d b x)). intros d. apply approaches_scal, cross_approach.
Qed.

(** ** The fourth moment *)
Definition fourth (b : nat) (x : R) : R := rsum (sym b) (fun n => IZR n ^ 4 * JZ n x ^ 2).
Lemma square_times n x : IZR n ^ 2 * JZ n x = x ^ 2 / 4 * JZ (n + -2) x + x / 2 * JZ (n + -1) x + x ^ 2 / 2 * JZ (n + 0) x + - (x / 2) * JZ (n + 1) x + x ^ 2 / 4 * JZ (n + 2) x.
Proof.
  assert (R0 := J_recZ n x). assert (R1 := J_recZ (n - 1) x). assert (R2 := J_recZ (n + 1) x).
  replace (n - 1 - 1)%Z with (n + -2)%Z in R1 by lia. replace (n - 1 + 1)%Z with n in R1 by lia. replace (n + 1 - 1)%Z with n in R2 by lia. replace (n + 1 + 1)%Z with (n + 2)%Z in R2 by lia.
  rewrite minus_IZR in R1. rewrite plus_IZR in R2. replace (n + -1)%Z with (n - 1)%Z by lia. rewrite Z.add_0_r.
  set (a := JZ n x) in *. set (am := JZ (n - 1) x) in *. set (ap := JZ (n + 1) x) in *. set (am2 := JZ (n + -2) x) in *. set (ap2 := JZ (n + 2) x) in *. set (k := IZR n) in *. clearbody a am ap am2 ap2 k.
  replace (k ^ 2 * a) with (k / 2 * (2 * k * a)) by field. rewrite <- R0. replace (k / 2 * (x * (am + ap))) with (x / 4 * (2 * (k - 1) * am + 2 * (k + 1) * ap) + x / 2 * (am - ap)) by field. rewrite <- R1, <- R2. field.
Qed.
Lemma fourth_approach x : approaches (fun b => fourth b x) (3 * x ^ 4 / 8 + x ^ 2 / 2).
Proof.
  set (s := fun c : Z => if (c =? -2)%Z then x ^ 2 / 4 else if (c =? -1)%Z then x / 2 else if (c =? 0)%Z then x ^ 2 / 2 else if (c =? 1)%Z then - (x / 2) else x ^ 2 / 4).
  assert (H := combination [-2; -1; 0; 1; 2]%Z s x). replace (3 * x ^ 4 / 8 + x ^ 2 / 2) with (rsum [-2; -1; 0; 1; 2]%Z (fun c => rsum [-2; -1; 0; 1; 2]%Z (fun d => s c * s d * (if (c =? d)%Z then 1 else 0)))).
  2:{ cbn [rsum]. unfold s. cbn [Z.eqb Pos.eqb]. field. }
  eapply approaches_ext; [|exact H]. intros b. unfold fourth. apply rsum_ext. intros n _. replace (IZR n ^ 4 * JZ n x ^ 2) with ((IZR n ^ 2 * JZ n x) ^ 2) by ring. rewrite square_times. f_equal. cbn [rsum]. unfold s. cbn [Z.eqb Pos.eqb]. ring.
Qed.
Lemma fourth_S b x : fourth (S b) x = fourth b x + 2 * INR (S b) ^ 4 * besselJ (S b) x ^ 2.
Proof.
  unfold fourth. rewrite rsum_sym_S, !besselZ_sq. replace (Z.abs_nat (Z.of_nat (S b))) with (S b) by lia. replace (Z.abs_nat (- Z.of_nat (S b))) with (S b) by lia. rewrite opp_IZR, <- INR_IZR_INZ. ring.
Qed.
Lemma fourth_incr b c x : (b <= c)%nat -> fourth b x <= fourth c x.
Proof. induction 1 as [|c _ IH]; [lra|]. rewrite fourth_S. assert (0 <= INR (S c) ^ 4 * besselJ (S c) x ^ 2) by (apply Rmult_le_pos; [apply pow_le, pos_INR|apply pow2_ge_0]). lra. Qed.
Theorem fourth_le b x : fourth b x <= 3 * x ^ 4 / 8 + x ^ 2 / 2.
Proof.
  destruct (Rle_lt_dec (fourth b x) (3 * x ^ 4 / 8 + x ^ 2 / 2)) as [H|H]; [exact H|]. exfalso.
  destruct (fourth_approach x (fourth b x - (3 * x ^ 4 / 8 + x ^ 2 / 2)) ltac:(lra)) as [N HN]. specialize (HN (Nat.max b N) ltac:(lia)). assert (I := fourth_incr b (Nat.max b N) x ltac:(lia)). apply Rabs_def2 in HN. lra.
Qed.
(** The product of neighbours decreases faster than the cube of the order. *)
Lemma cube_vanish x : approaches (fun b => INR b ^ 3 * Rabs (besselJ b x * besselJ (S b) x)) 0.
Proof.
  intros eps He. destruct (fourth_approach x (eps / 2) ltac:(lra)) as [N HN]. exists (S N). intros [|b] Hb; [lia|]. rewrite Rminus_0_r.
  assert (H0 := HN b ltac:(lia)). assert (H1 := HN (S b) ltac:(lia)). assert (H2 := HN (S (S b)) ltac:(lia)). apply Rabs_def2 in H0, H1, H2. rewrite fourth_S in H2. assert (F1 := fourth_S b x).
  set (m := INR (S b)) in *. set (p := besselJ (S b) x) in *. set (q := besselJ (S (S b)) x) in *. assert (M : 1 <= m) by (unfold m; rewrite S_INR; pose proof (pos_INR b); lra).
  assert (M2 : INR (S (S b)) = m + 1) by (rewrite (S_INR (S b)); reflexivity). rewrite M2 in H2. rewrite Rabs_pos_eq by (apply Rmult_le_pos; [apply pow_le; lra|apply Rabs_pos]). rewrite Rabs_mult.
  assert (A : 2 * (Rabs (m ^ 2 * p) * Rabs ((m + 1) ^ 2 * q)) <= (m ^ 2 * p) ^ 2 + ((m + 1) ^ 2 * q) ^ 2).
  { rewrite <- (pow2_abs (m ^ 2 * p)), <- (pow2_abs ((m + 1) ^ 2 * q)). pose proof (pow2_ge_0 (Rabs (m ^ 2 * p) - Rabs ((m + 1) ^ 2 * q))). lra. }
  rewrite (Rabs_mult (m ^ 2)), (Rabs_mult ((m + 1) ^ 2)), (Rabs_pos_eq (m ^ 2)), (Rabs_pos_eq ((m + 1) ^ 2)) in A by apply pow2_ge_0.
  assert (B : m ^ 3 * (Rabs p * Rabs q) <= m ^ 2 * Rabs p * ((m + 1) ^ 2 * Rabs q)).
  { replace (m ^ 2 * Rabs p * ((m + 1) ^ 2 * Rabs q)) with ((m ^ 2 * (m + 1) ^ 2) * (Rabs p * Rabs q)) by ring. apply Rmult_le_compat_r; [apply Rmult_le_pos; apply Rabs_pos|]. assert (m <= (m + 1) ^ 2) by nra. assert (0 <= m ^ 2) by apply pow2_ge_0. nra. }
  replace ((m ^ 2 * p) ^ 2) with (m ^ 4 * p ^ 2) in A by ring. replace (((m + 1) ^ 2 * q) ^ 2) with ((m + 1) ^ 4 * q ^ 2) in A by ring. lra.
Qed.
