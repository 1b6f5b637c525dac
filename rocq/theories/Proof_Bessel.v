(** Recurrences, derivatives and bounds of the Bessel functions. *)
From Coq Require Import Reals Lra Lia Arith.
From Coquelicot Require Import Coquelicot.
From Verif Require Import Bessel.
Open Scope R_scope.

(** ** Power series *)
Definition P (n : nat) (u : R) : R := PSeries (bessel_coef n) u.
Lemma J_P n x : besselJ n x = (x / 2) ^ n * P n ((x / 2) ^ 2). Proof. reflexivity. Qed.
Lemma P_ex n u : ex_pseries (bessel_coef n) u.
Proof. apply CV_disk_correct, CV_disk_inside. rewrite bessel_cv. exact I. Qed.
Lemma P_rec n u : P n u + u * P (S (S n)) u = INR (S n) * P (S n) u.
Proof.
  unfold P. rewrite <- PSeries_incr_1, <- PSeries_scal, <- PSeries_plus.
  - apply PSeries_ext. intros [|k]; unfold PS_plus, PS_scal, PS_incr_1; cbn -[INR fact pow].
    + change (bessel_coef n 0 + 0 = INR (S n) * bessel_coef (S n) 0). unfold bessel_coef. rewrite !Nat.add_0_r. rewrite fact_simpl, mult_INR. simpl pow. change (fact 0) with 1%nat.
      pose proof (INR_fact_neq_0 n). assert (INR (S n) <> 0) by (apply not_0_INR; lia). change (INR 1) with 1. field. split; assumption.
    + change (bessel_coef n (S k) + bessel_coef (S (S n)) k = INR (S n) * bessel_coef (S n) (S k)). unfold bessel_coef.
      replace (n + S k)%nat with (S (n + k)) by lia. replace (S (S n) + k)%nat with (S (S (n + k))) by lia. replace (S n + S k)%nat with (S (S (n + k))) by lia.
      rewrite !(fact_simpl (S (n + k))), !(fact_simpl (n + k)), (fact_simpl k), !mult_INR. simpl pow.
      pose proof (INR_fact_neq_0 k). pose proof (INR_fact_neq_0 (n + k)). assert (INR (S k) <> 0) by (apply not_0_INR; lia). assert (INR (S (n + k)) <> 0) by (apply not_0_INR; lia). assert (INR (S (S (n + k))) <> 0) by (apply not_0_INR; lia).
      rewrite !S_INR, !plus_INR in *. field. repeat split; assumption.
  - apply P_ex.
  - apply ex_pseries_incr_1, P_ex.
Qed.
Lemma P_derive n u : is_derive (P n) u (- P (S n) u).
Proof.
  replace (- P (S n) u) with (PSeries (PS_derive (bessel_coef n)) u). { apply is_derive_PSeries. rewrite bessel_cv. exact I. }
  unfold P. rewrite <- PSeries_opp. apply PSeries_ext. intros k. unfold PS_derive, PS_opp. change (INR (S k) * bessel_coef n (S k) = - bessel_coef (S n) k). unfold bessel_coef.
  replace (n + S k)%nat with (S (n + k)) by lia. replace (S n + k)%nat with (S (n + k)) by lia. rewrite (fact_simpl k), !mult_INR. simpl pow.
  pose proof (INR_fact_neq_0 k). pose proof (INR_fact_neq_0 (S (n + k))). assert (INR (S k) <> 0) by (apply not_0_INR; lia). field. repeat split; assumption.
Qed.
Lemma P_bound n u : 0 <= u -> Rabs (P n u) <= exp u / INR (fact n).
Proof.
  intros U. assert (FN : 0 < INR (fact n)) by apply INR_fact_lt_0.
  assert (B : forall k, 0 <= Rabs (bessel_coef n k * u ^ k) <= / INR (fact n) * (/ INR (fact k) * u ^ k)).
  { intros k. split; [apply Rabs_pos|]. unfold bessel_coef. rewrite Rabs_mult. unfold Rdiv. rewrite Rabs_mult, pow_1_abs, Rmult_1_l.
    assert (FK : 0 < INR (fact k)) by apply INR_fact_lt_0. assert (FNK : 0 < INR (fact (n + k))) by apply INR_fact_lt_0.
    rewrite Rabs_pos_eq by (left; apply Rinv_0_lt_compat, Rmult_lt_0_compat; assumption). rewrite (Rabs_pos_eq (u ^ k)) by now apply pow_le.
    rewrite <- Rmult_assoc. apply Rmult_le_compat_r; [now apply pow_le|]. rewrite <- Rinv_mult. apply Rinv_le_contravar; [now apply Rmult_lt_0_compat|]. rewrite Rmult_comm. apply Rmult_le_compat_l; [lra|]. apply le_INR, fact_le. lia. }
  assert (E : is_series (fun k => / INR (fact k) * u ^ k) (exp u)). { generalize (is_exp_Reals u). intros E. eapply is_series_ext; [|exact E]. intros k. cbn. rewrite pow_n_pow. unfold scal; cbn. unfold mult; cbn. ring. }
  assert (EX : ex_series (fun k => / INR (fact n) * (/ INR (fact k) * u ^ k))) by (eexists; apply (is_series_scal_l (/ INR (fact n)) _ _ E)).
  unfold P, PSeries. eapply Rle_trans. { apply Series_Rabs. eapply (ex_series_le (fun k => Rabs (bessel_coef n k * u ^ k))); [|exact EX]. intros k. change (norm (Rabs (bessel_coef n k * u ^ k))) with (Rabs (Rabs (bessel_coef n k * u ^ k))). rewrite Rabs_Rabsolu. apply B. }
  eapply Rle_trans. { apply Series_le; [exact B|exact EX]. }
  rewrite Series_scal_l. rewrite (is_series_unique _ _ E). right. unfold Rdiv. ring.
Qed.

(** ** Bessel functions *)
Theorem J_rec n x : x * (besselJ n x + besselJ (S (S n)) x) = 2 * INR (S n) * besselJ (S n) x.
Proof.
  rewrite !J_P. set (h := x / 2). replace x with (2 * h) by (unfold h; field). rewrite <- !tech_pow_Rmult. assert (E := P_rec n (h ^ 2)). simpl (h ^ 2) in E |- *. rewrite Rmult_1_r in *.
  replace (2 * h * (h ^ n * P n (h * h) + h * (h * h ^ n) * P (S (S n)) (h * h))) with (2 * h * h ^ n * (P n (h * h) + h * h * P (S (S n)) (h * h))) by ring. rewrite E. ring.
Qed.
Theorem J_derive_0 x : is_derive (besselJ 0) x (- besselJ 1 x).
Proof.
  apply is_derive_ext with (fun x => P 0 ((x / 2) ^ 2)). { intros t. rewrite J_P. simpl. ring. }
  evar_last. { apply (is_derive_comp (P 0) (fun x => (x / 2) ^ 2)). apply P_derive. auto_derive; [exact I|reflexivity]. }
  rewrite J_P. unfold scal; cbn. unfold mult; cbn. field.
Qed.
Theorem J_derive n x : is_derive (besselJ (S n)) x ((besselJ n x - besselJ (S (S n)) x) / 2).
Proof.
  apply is_derive_ext with (fun x => (x / 2) ^ S n * P (S n) ((x / 2) ^ 2)). { intros t. now rewrite J_P. }
  assert (D1 : is_derive (fun x => (x / 2) ^ S n) x (INR (S n) * (1 / 2) * (x / 2) ^ n)). { auto_derive; [exact I|]. change (match n with 0%nat => 1 | S _ => INR n + 1 end) with (INR (S n)). unfold Rdiv. ring. }
  assert (D2 : is_derive (fun x => P (S n) ((x / 2) ^ 2)) x ((x / 2) * (- P (S (S n)) ((x / 2) ^ 2)))).
  { evar_last. { apply (is_derive_comp (P (S n)) (fun x => (x / 2) ^ 2)). apply P_derive. auto_derive; [exact I|reflexivity]. } unfold scal; cbn. unfold mult; cbn. field. }
  evar_last. { apply (is_derive_mult _ _ _ _ _ D1 D2). intros; apply Rmult_comm. }
  unfold plus, mult; cbn -[INR pow]. rewrite !J_P. set (h := x / 2). assert (E := P_rec n (h ^ 2)). rewrite <- !tech_pow_Rmult. rewrite pow_O, Rmult_1_r in *.
  transitivity (h ^ n * (1 / 2) * (INR (S n) * P (S n) (h * h)) - h * (h * h ^ n) * P (S (S n)) (h * h)); [ring|]. rewrite <- tech_pow_Rmult in E. simpl (h^1) in E. rewrite Rmult_1_r in E. rewrite <- E. field.
Qed.
Theorem J_bound n x : Rabs (besselJ n x) <= Rabs (x / 2) ^ n / INR (fact n) * exp ((x / 2) ^ 2).
Proof.
  rewrite J_P, Rabs_mult, <- RPow_abs. unfold Rdiv at 3. rewrite Rmult_assoc. apply Rmult_le_compat_l; [apply pow_le, Rabs_pos|]. rewrite (Rmult_comm (/ INR (fact n))). apply P_bound. rewrite <- Rsqr_pow2. apply Rle_0_sqr.
Qed.

(** ** The sum of the squares *)
Fixpoint squares (N : nat) (x : R) : R := match N with O => besselJ 0 x ^ 2 | S N => squares N x + 2 * besselJ (S N) x ^ 2 end.
Lemma squares_derive N x : is_derive (squares N) x (- 2 * besselJ N x * besselJ (S N) x).
Proof.
  induction N as [|N IH].
  - cbn [squares]. evar_last. { apply (is_derive_pow (besselJ 0) 2 x _ (J_derive_0 x)). } simpl. ring.
  - cbn [squares]. assert (D := is_derive_scal (fun x => besselJ (S N) x ^ 2) x 2 _ (is_derive_pow (besselJ (S N)) 2 x _ (J_derive N x))).
    evar_last. { exact (is_derive_plus (squares N) (fun x => 2 * besselJ (S N) x ^ 2) x _ _ IH D). } unfold plus; cbn -[besselJ]. field.
Qed.
Lemma squares_0 N : squares N 0 = 1.
Proof. induction N as [|N IH]; cbn [squares]; [rewrite besselJ_0_0; ring|]. rewrite IH, besselJ_S_0. ring. Qed.
Lemma squares_incr N M x : (N <= M)%nat -> squares N x <= squares M x.
Proof. induction 1 as [|M H IH]; [lra|]. cbn [squares]. pose proof (pow2_ge_0 (besselJ (S M) x)). lra. Qed.
Lemma half_pow_le x y n : Rabs y <= Rabs x -> Rabs (y / 2) ^ n <= Rabs (x / 2) ^ n.
Proof. intros H. apply pow_incr. split; [apply Rabs_pos|]. unfold Rdiv. rewrite !Rabs_mult. apply Rmult_le_compat_r; [apply Rabs_pos|assumption]. Qed.
Theorem squares_near N x : Rabs (squares N x - 1) <= 2 * Rabs x * (Rabs (x / 2) ^ (2 * N + 1) / (INR (fact N) * INR (fact (S N))) * exp (2 * (x / 2) ^ 2)).
Proof.
  destruct (MVT_gen (squares N) 0 x (fun x => - 2 * besselJ N x * besselJ (S N) x)) as [c [HC E]].
  { intros y _. apply squares_derive. } { intros y _. apply continuity_pt_filterlim, (ex_derive_continuous (squares N) y). eexists. apply squares_derive. }
  rewrite squares_0 in E. rewrite E, Rminus_0_r.
  assert (AC : Rabs c <= Rabs x). { unfold Rmin, Rmax in HC. destruct (Rle_dec 0 x); unfold Rabs; destruct (Rcase_abs c), (Rcase_abs x); lra. }
  rewrite !Rabs_mult. replace (Rabs (-2)) with 2 by (rewrite Rabs_left; lra). 
  assert (FN : 0 < INR (fact N)) by apply INR_fact_lt_0. assert (FS : 0 < INR (fact (S N))) by apply INR_fact_lt_0.
  assert (EC : exp ((c / 2) ^ 2) <= exp ((x / 2) ^ 2)). { assert (LE : forall a b, a <= b -> exp a <= exp b) by (intros a b [L|L]; [left; now apply exp_increasing|right; now rewrite L]). apply LE. rewrite <- (pow2_abs (c / 2)), <- (pow2_abs (x / 2)). now apply half_pow_le. }
  assert (B1 : Rabs (besselJ N c) <= Rabs (x / 2) ^ N / INR (fact N) * exp ((x / 2) ^ 2)).
  { eapply Rle_trans; [apply J_bound|]. apply Rmult_le_compat; [|left; apply exp_pos| |assumption]. { apply Rdiv_le_0_compat; [apply pow_le, Rabs_pos|assumption]. } apply Rmult_le_compat_r; [left; now apply Rinv_0_lt_compat|now apply half_pow_le]. }
  assert (B2 : Rabs (besselJ (S N) c) <= Rabs (x / 2) ^ S N / INR (fact (S N)) * exp ((x / 2) ^ 2)).
  { eapply Rle_trans; [apply J_bound|]. apply Rmult_le_compat; [|left; apply exp_pos| |assumption]. { apply Rdiv_le_0_compat; [apply pow_le, Rabs_pos|assumption]. } apply Rmult_le_compat_r; [left; now apply Rinv_0_lt_compat|now apply half_pow_le]. }
  assert (PR := Rmult_le_compat _ _ _ _ (Rabs_pos _) (Rabs_pos _) B1 B2). pose proof (Rabs_pos x).
  apply Rle_trans with (2 * Rabs x * (Rabs (besselJ N c) * Rabs (besselJ (S N) c))); [right; ring|]. apply Rmult_le_compat_l; [lra|]. eapply Rle_trans; [exact PR|]. right.
  replace (2 * N + 1)%nat with (N + S N)%nat by lia. rewrite pow_add. replace (2 * (x / 2) ^ 2) with ((x / 2) ^ 2 + (x / 2) ^ 2) by ring. rewrite exp_plus. field. lra.
Qed.

(** Below any bound after finitely many terms. *)
Lemma squares_limit x eps : 0 < eps -> exists N, forall M, (N <= M)%nat -> Rabs (squares M x - 1) < eps.
Proof.
  intros He. set (h := Rabs (x / 2)). set (K := 2 * Rabs x * exp (2 * (x / 2) ^ 2)).
  assert (K0 : 0 <= K) by (apply Rmult_le_pos; [pose proof (Rabs_pos x); lra|left; apply exp_pos]).
  assert (C := cv_speed_pow_fact h). 
  destruct (C (Rmin 1 (eps / (K + 1)))) as [N HN]. { apply Rmin_pos; [lra|]. apply Rdiv_lt_0_compat; lra. }
  exists N. intros M HM. eapply Rle_lt_trans; [apply squares_near|]. fold h.
  assert (T : forall k, (N <= k)%nat -> 0 <= h ^ k / INR (fact k) < Rmin 1 (eps / (K + 1))).
  { intros k Hk. assert (G : 0 <= h ^ k / INR (fact k)) by (apply Rdiv_le_0_compat; [apply pow_le, Rabs_pos|apply INR_fact_lt_0]). split; [assumption|]. specialize (HN k Hk). unfold R_dist in HN. rewrite Rminus_0_r, Rabs_pos_eq in HN by assumption. exact HN. }
  destruct (T M HM) as [A1 A2]. destruct (T (S M)) as [B1 B2]; [lia|].
  assert (E : 2 * Rabs x * (h ^ (2 * M + 1) / (INR (fact M) * INR (fact (S M))) * exp (2 * (x / 2) ^ 2)) = K * (h ^ M / INR (fact M) * (h ^ S M / INR (fact (S M))))).
  { unfold K. replace (2 * M + 1)%nat with (M + S M)%nat by lia. rewrite pow_add. pose proof (INR_fact_neq_0 M). pose proof (INR_fact_neq_0 (S M)). field. split; assumption. }
  rewrite E. assert (M1 := Rmin_l 1 (eps / (K + 1))). assert (M2 := Rmin_r 1 (eps / (K + 1))).
  assert (Q : h ^ M / INR (fact M) * (h ^ S M / INR (fact (S M))) <= eps / (K + 1)). { rewrite <- (Rmult_1_l (eps / (K + 1))). apply Rmult_le_compat; lra. }
  apply Rle_lt_trans with (K * (eps / (K + 1))); [now apply Rmult_le_compat_l|]. apply Rmult_lt_reg_r with (K + 1); [lra|]. replace (K * (eps / (K + 1)) * (K + 1)) with (K * eps) by (field; lra). nra.
Qed.
Theorem squares_le_1 N x : squares N x <= 1.
Proof.
  destruct (Rle_lt_dec (squares N x) 1) as [H|H]; [assumption|]. exfalso. destruct (squares_limit x (squares N x - 1)) as [M HM]; [lra|]. specialize (HM (Nat.max N M) ltac:(lia)).
  assert (S1 := squares_incr N (Nat.max N M) x ltac:(lia)). apply Rabs_def2 in HM. lra.
Qed.
Theorem squares_limit_1 x : is_lim_seq (fun N => squares N x) 1.
Proof. apply is_lim_seq_Reals. intros eps He. destruct (squares_limit x eps He) as [N HN]. exists N. intros n Hn. apply HN. lia. Qed.
