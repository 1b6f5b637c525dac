(** Bessel functions of the first kind of order n >= 0, by their power series
    (scipy.special.jv for integer order; j0, j1 are orders 0 and 1). *)
From Coq Require Import Reals Lra Lia Arith.
From Coquelicot Require Import Coquelicot.
Open Scope R_scope.

Definition bessel_coef (n k : nat) : R := (-1) ^ k / (INR (fact k) * INR (fact (n + k))).

(** J_n(x) = (x/2)^n * sum_k (-1)^k / (k! (n+k)!) * (x/2)^(2k) *)
Definition besselJ (n : nat) (x : R) : R := (x / 2) ^ n * PSeries (bessel_coef n) ((x / 2) ^ 2).

Lemma bessel_coef_neq0 n k : bessel_coef n k <> 0.
Proof.
  unfold bessel_coef. assert (H := INR_fact_neq_0 k). assert (H' := INR_fact_neq_0 (n + k)).
  assert (P : (-1) ^ k <> 0) by (apply pow_nonzero; lra).
  unfold Rdiv. repeat apply Rmult_integral_contrapositive_currified; auto. apply Rinv_neq_0_compat.
  now apply Rmult_integral_contrapositive_currified.
Qed.

Lemma bessel_coef_ratio n k : Rabs (bessel_coef n (S k) / bessel_coef n k) = / (INR (S k) * INR (S (n + k))).
Proof.
  unfold bessel_coef. rewrite <- plus_n_Sm, !fact_simpl, !mult_INR. simpl pow.
  assert (H := INR_fact_neq_0 k). assert (H' := INR_fact_neq_0 (n + k)).
  assert (P : (-1) ^ k <> 0) by (apply pow_nonzero; lra).
  assert (S1 : 0 < INR (S k)) by (apply lt_0_INR; lia). assert (S2 : 0 < INR (S (n + k))) by (apply lt_0_INR; lia).
  match goal with |- Rabs ?x = _ => replace x with (- / (INR (S k) * INR (S (n + k)))) end.
  - rewrite Rabs_Ropp, Rabs_pos_eq; [reflexivity|]. left. apply Rinv_0_lt_compat. now apply Rmult_lt_0_compat.
  - field. repeat split; try assumption; lra.
Qed.

Lemma bessel_cv n : CV_radius (bessel_coef n) = p_infty.
Proof.
  apply CV_radius_infinite_DAlembert; [apply bessel_coef_neq0|].
  apply is_lim_seq_ext with (fun k => / (INR (S k) * INR (S (n + k)))).
  { intros k. symmetry. apply bessel_coef_ratio. }
  apply is_lim_seq_le_le with (fun _ => 0) (fun k => / INR (S k)).
  - intros k. assert (S1 : 1 <= INR (S k)) by (rewrite S_INR; pose proof (pos_INR k); lra).
    assert (S2 : 1 <= INR (S (n + k))) by (rewrite S_INR; pose proof (pos_INR (n + k)); lra).
    split; [left; apply Rinv_0_lt_compat; apply Rmult_lt_0_compat; lra|].
    apply Rinv_le_contravar; [lra|]. rewrite <- (Rmult_1_r (INR (S k))) at 1. apply Rmult_le_compat_l; lra.
  - apply is_lim_seq_const.
  - apply (is_lim_seq_incr_1 (fun k => / INR k)).
    replace (Finite 0) with (Rbar_inv p_infty) by reflexivity. apply is_lim_seq_inv; [apply is_lim_seq_INR|discriminate].
Qed.

Lemma besselJ_0_0 : besselJ 0 0 = 1.
Proof.
  unfold besselJ. replace ((0 / 2) ^ 2) with 0 by (simpl; field). rewrite PSeries_0. unfold bessel_coef. simpl. field.
Qed.

Lemma besselJ_S_0 n : besselJ (S n) 0 = 0.
Proof. unfold besselJ. replace (0 / 2) with 0 by field. rewrite pow_i by lia. ring. Qed.

Lemma besselJ_opp n x : besselJ n (- x) = (-1) ^ n * besselJ n x.
Proof.
  unfold besselJ. replace (- x / 2) with (-1 * (x / 2)) by field. rewrite !Rpow_mult_distr.
  replace ((-1) ^ 2) with 1 by ring. rewrite Rmult_1_l. ring.
Qed.

(** Every J_n is non-zero at all small non-zero arguments. *)
Lemma besselJ_neq0_small n : exists d, 0 < d /\ forall x, x <> 0 -> Rabs x < d -> besselJ n x <> 0.
Proof.
  assert (C : continuity_pt (PSeries (bessel_coef n)) 0).
  { apply PSeries_continuity. rewrite bessel_cv. exact I. }
  assert (P0 : PSeries (bessel_coef n) 0 <> 0) by (rewrite PSeries_0; apply bessel_coef_neq0).
  apply continuity_pt_locally with (eps := mkposreal _ (Rabs_pos_lt _ P0)) in C. destruct C as [d Hd]. simpl in Hd.
  exists (Rmin 1 d). split; [apply Rmin_pos; [lra|apply cond_pos]|].
  intros x Hx Hxd. unfold besselJ. apply Rmult_integral_contrapositive_currified.
  - apply pow_nonzero. lra.
  - assert (H1 : Rabs x < 1) by (eapply Rlt_le_trans; [exact Hxd|apply Rmin_l]).
    assert (H2 : Rabs x < d) by (eapply Rlt_le_trans; [exact Hxd|apply Rmin_r]).
    intros E. specialize (Hd ((x / 2) ^ 2)). rewrite E in Hd.
    assert (B : ball 0 d ((x / 2) ^ 2)).
    { change (Rabs ((x / 2) ^ 2 - 0) < d). rewrite Rminus_0_r, <- RPow_abs. unfold Rdiv. rewrite Rabs_mult.
      rewrite (Rabs_pos_eq (/ 2)) by lra. pose proof (Rabs_pos x). simpl. rewrite Rmult_1_r.
      apply Rle_lt_trans with (Rabs x); [|assumption]. nra. }
    specialize (Hd B). replace (0 - PSeries (bessel_coef n) 0) with (- PSeries (bessel_coef n) 0) in Hd by ring.
    rewrite Rabs_Ropp in Hd. lra.
Qed.
