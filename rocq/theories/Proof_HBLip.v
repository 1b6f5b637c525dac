(** The tunnelling current changes at most in proportion to the junction voltages. *)
From Coq Require Import List ZArith Lia Bool Arith Reals Lra.
From Coquelicot Require Import Coquelicot.
From Verif Require Import Base Sums Round Bessel Model_QtCurrent Spec_QtCurrent Spec_QtApi Proof_QtCurrent Proof_QtCurrent2 Proof_QtSym
  Proof_QtApi Proof_QtApi2 Proof_QtWit Proof_Bessel Proof_Weights Proof_Converge Proof_Power3 Model_HB Spec_HB Spec_HBConv Proof_HBConv.
Import ListNotations.
Local Notation length := List.length.
Open Scope R_scope.

(** ** One coefficient *)
Lemma J_abs1 n x : Rabs (besselJ n x) <= 1.
Proof.
  apply Rsqr_incr_0_var; [|lra]. rewrite <- Rsqr_abs, Rsqr_1, Rsqr_pow2. destruct n as [|n]; [|apply J_small].
  pose proof (squares_le_1 0 x) as H. cbn [squares] in H. lra.
Qed.
Lemma J_lip n x y : Rabs (besselJ n x - besselJ n y) <= Rabs (x - y).
Proof.
  set (df := fun z => match n with O => - besselJ 1 z | S m => (besselJ m z - besselJ (S (S m)) z) / 2 end).
  assert (D : forall z, is_derive (besselJ n) z (df z)). { intros z. unfold df. destruct n; [apply J_derive_0|apply J_derive]. }
  destruct (MVT_gen (besselJ n) y x df) as [c [_ E]]; [intros z _; apply D|intros z _; apply continuity_pt_filterlim, (ex_derive_continuous (besselJ n)); eexists; apply D|].
  rewrite E, Rabs_mult. rewrite <- (Rmult_1_l (Rabs (x - y))) at 2. apply Rmult_le_compat_r; [apply Rabs_pos|]. unfold df. destruct n as [|m].
  - rewrite Rabs_Ropp. apply J_abs1.
  - pose proof (J_abs1 m c) as A. pose proof (J_abs1 (S (S m)) c) as B. apply Rabs_le_between in A. apply Rabs_le_between in B. apply Rabs_le. lra.
Qed.
Lemma J_order n x : INR n * Rabs (besselJ n x) <= Rabs x.
Proof.
  destruct n as [|n]; [cbn [INR]; rewrite Rmult_0_l; apply Rabs_pos|]. pose proof (J_rec n x) as E. rewrite <- (Rabs_pos_eq (INR (S n))) by apply pos_INR. rewrite <- Rabs_mult.
  replace (INR (S n) * besselJ (S n) x) with (x * ((besselJ n x + besselJ (S (S n)) x) / 2)) by lra. rewrite Rabs_mult. rewrite <- (Rmult_1_r (Rabs x)) at 2. apply Rmult_le_compat_l; [apply Rabs_pos|].
  pose proof (J_abs1 n x) as A. pose proof (J_abs1 (S (S n)) x) as B. apply Rabs_le_between in A. apply Rabs_le_between in B. apply Rabs_le. lra.
Qed.
Lemma neg1_pow n : (-1) ^ n = 1 \/ (-1) ^ n = -1.
Proof. induction n as [|n [E|E]]; cbn [pow]; [left|right|left]; rewrite ?E; ring. Qed.
Lemma besselZ_cases k : exists n s, (s = 1 \/ s = -1) /\ Z.abs k = Z.of_nat n /\ forall x, besselZ besselJ k x = s * besselJ n x.
Proof.
  unfold besselZ. destruct (Z.ltb_spec k 0).
  - exists (Z.to_nat (- k)), ((-1) ^ Z.to_nat (- k)). split; [apply neg1_pow|]. split; [lia|reflexivity].
  - exists (Z.to_nat k), 1. split; [now left|]. split; [lia|]. intros; ring.
Qed.
Lemma sin_nat n x : Rabs (sin (INR n * x)) <= INR n * Rabs (sin x).
Proof.
  induction n as [|n IH]; [cbn [INR]; rewrite !Rmult_0_l, sin_0, Rabs_R0; lra|]. rewrite S_INR, !Rmult_plus_distr_r, !Rmult_1_l, sin_plus.
  eapply Rle_trans; [apply Rabs_triang|]. rewrite !Rabs_mult. assert (A : Rabs (cos x) <= 1) by (apply Rabs_le, COS_bound). assert (B : Rabs (cos (INR n * x)) <= 1) by (apply Rabs_le, COS_bound).
  pose proof (Rabs_pos (sin x)). pose proof (Rabs_pos (sin (INR n * x))). nra.
Qed.
Lemma cos_nat n x : 1 - cos (INR n * x) <= INR n ^ 2 * (1 - cos x).
Proof.
  assert (E : forall y, 1 - cos y = 2 * sin (y / 2) ^ 2). { intros y. replace (cos y) with (cos (2 * (y / 2))) by (f_equal; field). rewrite cos_2a_sin. ring. }
  rewrite !E. replace (INR n * x / 2) with (INR n * (x / 2)) by field. pose proof (sin_nat n (x / 2)) as H. rewrite <- (pow2_abs (sin (INR n * (x / 2)))), <- (pow2_abs (sin (x / 2))).
  pose proof (Rabs_pos (sin (INR n * (x / 2)))). pose proof (pow_incr _ _ 2 (conj H0 H)) as P. rewrite Rpow_mult_distr in P. lra.
Qed.
Lemma polar_sq a b t u : Cmod (RtoC a * cis t - RtoC b * cis u)%C ^ 2 = (a - b) ^ 2 + 2 * (a * b) * (1 - cos (t - u)).
Proof.
  unfold Cmod. rewrite pow2_sqrt by nra. unfold cis, Cminus, Cplus, Copp, Cmult, RtoC; cbn [fst snd]. rewrite cos_minus.
  pose proof (sin2_cos2 t) as S1. pose proof (sin2_cos2 u) as S2. unfold Rsqr in S1, S2.
  replace ((a * cos t - 0 * sin t + - (b * cos u - 0 * sin u)) ^ 2 + (a * sin t + 0 * cos t + - (b * sin u + 0 * cos u)) ^ 2)
    with (a * a * (sin t * sin t + cos t * cos t) + b * b * (sin u * sin u + cos u * cos u) - 2 * a * b * (cos t * cos u + sin t * sin u)) by ring. rewrite S1, S2. ring.
Qed.
Lemma coef_lip x y phi psi k : 0 <= x -> 0 <= y -> Cmod (jacobi_anger besselJ x phi k - jacobi_anger besselJ y psi k)%C <= Cmod (RtoC x * cis phi - RtoC y * cis psi)%C.
Proof.
  intros X Y. apply Rsqr_incr_0_var; [|apply Cmod_ge_0]. rewrite !Rsqr_pow2. unfold jacobi_anger. rewrite !polar_sq.
  destruct (besselZ_cases k) as [n [s [Hs [Hk E]]]]. rewrite !E. pose proof (J_lip n x y) as L. pose proof (J_order n x) as O1. pose proof (J_order n y) as O2. rewrite (Rabs_pos_eq x) in O1 by assumption. rewrite (Rabs_pos_eq y) in O2 by assumption.
  assert (EC : cos (- (IZR k * phi) - - (IZR k * psi)) = cos (INR n * (phi - psi))).
  { replace (- (IZR k * phi) - - (IZR k * psi)) with (- (IZR k * (phi - psi))) by ring. rewrite cos_neg, INR_IZR_INZ, <- Hk. destruct (Z.abs_eq_or_opp k) as [-> | ->]; [reflexivity|]. rewrite opp_IZR, <- cos_neg. f_equal. ring. }
  rewrite EC. pose proof (cos_nat n (phi - psi)) as CN. pose proof (COS_bound (phi - psi)) as CB. pose proof (COS_bound (INR n * (phi - psi))) as CB2.
  set (a := besselJ n x) in *. set (b := besselJ n y) in *. set (cn := cos (INR n * (phi - psi))) in *. set (c1 := cos (phi - psi)) in *.
  assert (L2 : (s * a - s * b) ^ 2 <= (x - y) ^ 2). { rewrite <- (pow2_abs (x - y)). replace ((s * a - s * b) ^ 2) with ((a - b) ^ 2) by (destruct Hs as [-> | ->]; ring). rewrite <- (pow2_abs (a - b)). apply pow_incr. split; [apply Rabs_pos|exact L]. }
  assert (E2 : s * a * (s * b) = a * b) by (destruct Hs as [-> | ->]; ring). rewrite E2.
  assert (AB : a * b <= Rabs a * Rabs b) by (rewrite <- Rabs_mult; apply Rle_abs).
  assert (N0 := pos_INR n). assert (A0 := Rabs_pos a). assert (B0 := Rabs_pos b).
  assert (P1 : (INR n * Rabs a) * (INR n * Rabs b) <= x * y) by (apply Rmult_le_compat; try assumption; apply Rmult_le_pos; assumption).
  assert (P2 : a * b * (1 - cn) <= Rabs a * Rabs b * (INR n ^ 2 * (1 - c1))).
  { apply Rle_trans with (Rabs a * Rabs b * (1 - cn)); [apply Rmult_le_compat_r; lra|]. apply Rmult_le_compat_l; [apply Rmult_le_pos; assumption|assumption]. }
  assert (P3 : INR n * Rabs a * (INR n * Rabs b) * (1 - c1) <= x * y * (1 - c1)) by (apply Rmult_le_compat_r; lra).
  replace (Rabs a * Rabs b * (INR n ^ 2 * (1 - c1))) with (INR n * Rabs a * (INR n * Rabs b) * (1 - c1)) in P2 by ring. lra.
Qed.
Lemma cis_mod t : Cmod (cis t) = 1.
Proof. unfold cis, Cmod. cbn [fst snd]. pose proof (sin2_cos2 t) as S1. unfold Rsqr in S1. replace (cos t ^ 2 + sin t ^ 2) with 1 by lra. apply sqrt_1. Qed.
Lemma coef_le1 x phi k : Cmod (jacobi_anger besselJ x phi k) <= 1.
Proof.
  unfold jacobi_anger. rewrite Cmod_mult, cis_mod, Rmult_1_r, Cmod_R. destruct (besselZ_cases k) as [n [s [Hs [_ E]]]]. rewrite E, Rabs_mult. pose proof (J_abs1 n x).
  destruct Hs as [-> | ->]; [rewrite Rabs_R1|replace (Rabs (-1)) with 1 by (rewrite Rabs_left; lra)]; lra.
Qed.
Lemma drive_lip v w a k : 0 < a -> Cmod (jacobi_anger besselJ (Cmod v / a) (angle v) k - jacobi_anger besselJ (Cmod w / a) (angle w) k)%C <= Cmod (v - w)%C / a.
Proof.
  intros A. assert (I := Rinv_0_lt_compat a A). eapply Rle_trans; [apply coef_lip; apply Rmult_le_pos; try apply Cmod_ge_0; lra|]. right.
  replace (RtoC (Cmod v / a) * cis (angle v) - RtoC (Cmod w / a) * cis (angle w))%C with ((v - w) * RtoC (/ a))%C; [rewrite Cmod_mult, Cmod_R, Rabs_pos_eq by lra; reflexivity|].
  rewrite (angle_polar v) at 1. rewrite (angle_polar w) at 1. unfold Rdiv. rewrite !RtoC_mult. ring.
Qed.
