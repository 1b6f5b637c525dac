(** The phase-factor coefficients decay faster than any geometric sequence,
    uniformly in the truncation, and so do their truncation errors. *)
From Coq Require Import List ZArith Bool Reals Lia Lra Psatz.
From Coquelicot Require Import Coquelicot.
From Verif Require Import Base Sums Round Bessel Model_QtCurrent Spec_QtCurrent Proof_QtCurrent Proof_QtWit Proof_Bessel Proof_Weights.
Import ListNotations.
Open Scope R_scope.
Local Notation length := List.length.

(** ** Powers of the absolute value of an index *)
Definition pw (q : R) (k : Z) : R := q ^ Z.abs_nat k.
Lemma pw_pos q k : 0 < q -> 0 < pw q k. Proof. intros H. now apply pow_lt. Qed.
Lemma pow_le_1 q n : 0 < q <= 1 -> q ^ n <= 1.
Proof. intros H. induction n as [|n IH]; simpl; [lra|]. pose proof (pow_lt q n (proj1 H)). nra. Qed.
Lemma pow_decr q n m : 0 < q <= 1 -> (n <= m)%nat -> q ^ m <= q ^ n.
Proof. intros H L. replace m with (n + (m - n))%nat by lia. rewrite pow_add. pose proof (pow_le_1 q (m - n) H). pose proof (pow_lt q n (proj1 H)). nra. Qed.
Lemma pw_mult q r k : pw (q * r) k = pw q k * pw r k. Proof. apply Rpow_mult_distr. Qed.
Lemma pw_le_1 q k : 0 < q <= 1 -> pw q k <= 1. Proof. apply pow_le_1. Qed.
Lemma pw_far q k n : 0 < q <= 1 -> (Z.of_nat n < Z.abs k)%Z -> pw q k <= q ^ n.
Proof. intros H L. apply pow_decr; [assumption|lia]. Qed.
Lemma pw_shift q (p : nat) k l : 0 < q <= 1 -> pw q (k - Z.of_nat p * l) * pw (q ^ p) l <= pw q k.
Proof. intros H. unfold pw. rewrite <- pow_mult, <- pow_add. apply pow_decr; [assumption|]. nia. Qed.
Lemma half_sum N : rsum (sym N) (pw (/ 2)) = 3 - 2 * (/ 2) ^ N.
Proof.
  induction N as [|N IH]. { rewrite rsum_sym_0. unfold pw. simpl. lra. }
  rewrite rsum_sym_S, IH. unfold pw. replace (Z.abs_nat (Z.of_nat (S N))) with (S N) by lia. replace (Z.abs_nat (- Z.of_nat (S N))) with (S N) by lia. simpl. lra.
Qed.
Lemma half_sum_le N : rsum (sym N) (pw (/ 2)) <= 3.
Proof. rewrite half_sum. pose proof (pow_lt (/ 2) N ltac:(lra)). lra. Qed.

(** ** The Bessel functions *)
Lemma power_fact h n : 0 <= h -> h ^ n / INR (fact n) <= exp h.
Proof.
  intros H. assert (S := proj1 (is_pseries_R _ _ _) (is_exp_Reals h)). set (t := fun k => / INR (fact k) * h ^ k) in S.
  assert (T : forall k, 0 <= t k). { intros k. apply Rmult_le_pos; [left; apply Rinv_0_lt_compat, INR_fact_lt_0|now apply pow_le]. }
  assert (L : sum_n t n <= exp h). { apply (is_lim_seq_incr_compare (sum_n t) (exp h)); [exact S|]. intros k. rewrite sum_Sn. change plus with Rplus. specialize (T (Datatypes.S k)). lra. }
  replace (h ^ n / INR (fact n)) with (t n) by (unfold t; field; apply INR_fact_neq_0). eapply Rle_trans; [|exact L]. destruct n as [|n]. { rewrite sum_O. lra. }
  rewrite sum_Sn. change plus with Rplus. assert (0 <= sum_n t n); [|lra]. clear -T. induction n as [|n IH]. { rewrite sum_O. apply T. } rewrite sum_Sn. change plus with Rplus. specialize (T (S n)). lra.
Qed.
Definition decay (x q : R) : R := exp (Rabs (x / 2) / q) * exp ((x / 2) ^ 2).
Lemma decay_pos x q : 0 < decay x q. Proof. apply Rmult_lt_0_compat; apply exp_pos. Qed.
Lemma exp_le x y : x <= y -> exp x <= exp y. Proof. intros [H| ->]; [left; now apply exp_increasing|lra]. Qed.
Lemma J_decay x y q n : 0 < q -> Rabs y <= Rabs x -> Rabs (besselJ n y) <= decay x q * q ^ n.
Proof.
  intros Q Y. eapply Rle_trans; [apply J_bound|]. assert (F := INR_fact_lt_0 n). unfold decay.
  assert (P1 := half_pow_le x y n Y). assert (P2 := power_fact (Rabs (x / 2) / q) n). assert (0 <= Rabs (x / 2) / q) as H0 by (apply Rmult_le_pos; [apply Rabs_pos|left; now apply Rinv_0_lt_compat]). specialize (P2 H0).
  assert (P3 : exp ((y / 2) ^ 2) <= exp ((x / 2) ^ 2)). { apply exp_le. rewrite <- (pow2_abs (y / 2)), <- (pow2_abs (x / 2)). assert (A := half_pow_le x y 2 Y). exact A. }
  assert (P4 : Rabs (x / 2) ^ n / INR (fact n) <= exp (Rabs (x / 2) / q) * q ^ n).
  { replace (Rabs (x / 2)) with (Rabs (x / 2) / q * q) at 1 by (field; lra). rewrite Rpow_mult_distr. assert (QN := pow_lt q n Q). unfold Rdiv in *. nra. }
  assert (P5 : 0 <= Rabs (y / 2) ^ n / INR (fact n)). { apply Rmult_le_pos; [apply pow_le, Rabs_pos|left; now apply Rinv_0_lt_compat]. }
  assert (P6 : Rabs (y / 2) ^ n / INR (fact n) <= Rabs (x / 2) ^ n / INR (fact n)). { apply Rmult_le_compat_r; [left; now apply Rinv_0_lt_compat|assumption]. }
  pose proof (exp_pos ((y / 2) ^ 2)). pose proof (exp_pos ((x / 2) ^ 2)).
  apply Rle_trans with (exp (Rabs (x / 2) / q) * q ^ n * exp ((x / 2) ^ 2)); [|right; ring]. apply Rmult_le_compat; try lra.
Qed.
Lemma JZ_abs n x : Rabs (besselZ besselJ n x) = Rabs (besselJ (Z.abs_nat n) x).
Proof.
  unfold besselZ. destruct (Z.ltb_spec n 0).
  - replace (Z.to_nat (- n)) with (Z.abs_nat n) by lia. rewrite Rabs_mult, pow_1_abs. ring.
  - replace (Z.to_nat n) with (Z.abs_nat n) by lia. reflexivity.
Qed.
Lemma JZ_decay x y q n : 0 < q -> Rabs y <= Rabs x -> Rabs (besselZ besselJ n y) <= decay x q * pw q n.
Proof. intros. rewrite JZ_abs. now apply J_decay. Qed.

(** ** Rapidly decreasing sequences *)
Definition rapid (A : Z -> C) : Prop := forall q, 0 < q <= 1 -> exists K, 0 <= K /\ forall l, Cmod (A l) <= K * pw q l.
Lemma Cmod_cis t : Cmod (cis t) = 1.
Proof. unfold Cmod, cis. cbn [fst snd]. rewrite <- sqrt_1. f_equal. rewrite <- !Rsqr_pow2. rewrite Rplus_comm. apply sin2_cos2. Qed.
Lemma rapid_bessel alpha phi : rapid (jacobi_anger besselJ alpha phi).
Proof.
  intros q Q. exists (decay alpha q). split; [left; apply decay_pos|]. intros l. unfold jacobi_anger. rewrite Cmod_mult, Cmod_cis, Cmod_R, Rmult_1_r. apply JZ_decay; lra.
Qed.
Lemma Cmod_cut b f k : Cmod (cut b f k) <= Cmod (f k).
Proof. unfold cut. destruct (_ <=? _)%Z; [lra|]. rewrite Cmod_0. apply Cmod_ge_0. Qed.

Section decay.
Variable A : nat -> Z -> C.
Hypothesis HA : forall p, (1 <= p)%nat -> rapid (A p).

Lemma dominated p q : (1 <= p)%nat -> 0 < q <= 1 -> exists K, 0 <= K /\ forall B b k, Cmod (phase_factor B b A p k) <= K * pw q k.
Proof.
  intros P Q. induction P as [|p P [K [K0 IH]]].
  - destruct (HA 1 (le_n 1) q Q) as [K [K0 H]]. exists K. split; [assumption|]. intros B b k. rewrite phase_factor_1. eapply Rle_trans; [apply Cmod_cut|apply H].
  - assert (Q' : 0 < q ^ S p <= 1) by (split; [now apply pow_lt|now apply pow_le_1]).
    destruct (HA (S p) ltac:(lia) (q ^ S p * / 2)) as [K' [K0' H]]; [lra|]. exists (3 * (K * K')). split; [nra|]. intros B b k. rewrite phase_factor_S by lia.
    eapply Rle_trans; [apply Cmod_csum|]. apply Rle_trans with (rsum (sym b) (fun l => K * K' * pw q k * pw (/ 2) l)).
    + apply rsum_le. intros l _. rewrite Cmod_mult. assert (X1 := IH B b (k - Z.of_nat (S p) * l)%Z). assert (X2 := Cmod_cut B (phase_factor B b A p) (k - Z.of_nat (S p) * l)%Z). assert (X3 := H l). rewrite pw_mult in X3. assert (X4 := pw_shift q (S p) k l Q).
      assert (0 < pw (/ 2) l) by (apply pw_pos; lra). assert (0 < pw (q ^ S p) l) by (apply pw_pos; lra). assert (0 < pw q (k - Z.of_nat (S p) * l)) by (apply pw_pos; lra).
      apply Rle_trans with (K * pw q (k - Z.of_nat (S p) * l) * (K' * (pw (q ^ S p) l * pw (/ 2) l))).
      { apply Rmult_le_compat; try apply Cmod_ge_0; lra. }
      replace (K * pw q (k - Z.of_nat (S p) * l) * (K' * (pw (q ^ S p) l * pw (/ 2) l))) with (K * K' * pw (/ 2) l * (pw q (k - Z.of_nat (S p) * l) * pw (q ^ S p) l)) by ring.
      replace (K * K' * pw q k * pw (/ 2) l) with (K * K' * pw (/ 2) l * pw q k) by ring. apply Rmult_le_compat_l; [|assumption]. apply Rmult_le_pos; [nra|lra].
    + rewrite rsum_scal. assert (0 < pw q k) by (apply pw_pos; lra). assert (S3 := half_sum_le b). assert (0 <= K * K' * pw q k) by (apply Rmult_le_pos; [nra|lra]). nra.
Qed.

(** Two sequences cut at different places. *)
Lemma cut_close f f' K E q r n B B' m : 0 < q <= 1 -> 0 < r -> 0 <= K -> 0 <= E ->
  (n <= B)%nat -> (n <= B')%nat -> Cmod (f m) <= K * pw (r * q) m -> Cmod (f' m) <= K * pw (r * q) m -> Cmod (Cminus (f m) (f' m)) <= E * q ^ n * pw r m ->
  Cmod (Cminus (cut B f m) (cut B' f' m)) <= (E + 2 * K) * q ^ n * pw r m.
Proof.
  intros Q R0 K0 E0 L L' H H' D. assert (QN := pow_lt q n (proj1 Q)). assert (RM := pw_pos r m R0).
  destruct (Z_le_gt_dec (Z.abs m) (Z.of_nat n)) as [S|S].
  - rewrite !cut_in by lia. assert (0 <= 2 * K * q ^ n * pw r m) by (apply Rmult_le_pos; [|lra]; apply Rmult_le_pos; lra). lra.
  - unfold Cminus. eapply Rle_trans; [apply Cmod_triangle|]. rewrite Cmod_opp. assert (X := Cmod_cut B f m). assert (X' := Cmod_cut B' f' m). assert (F := pw_far q m n Q ltac:(lia)). rewrite pw_mult in H, H'.
    assert (Y : K * (pw r m * pw q m) <= K * (q ^ n * pw r m)). { apply Rmult_le_compat_l; [assumption|]. nra. } assert (0 <= E * q ^ n * pw r m) by (apply Rmult_le_pos; [|lra]; apply Rmult_le_pos; lra). lra.
Qed.

Lemma truncated p q : (1 <= p)%nat -> 0 < q <= 1 -> exists E, 0 <= E /\ forall B b B' b' n k, (n <= B)%nat -> (n <= b)%nat -> (n <= B')%nat -> (n <= b')%nat ->
  Cmod (Cminus (phase_factor B b A p k) (phase_factor B' b' A p k)) <= E * q ^ n * pw q k.
Proof.
  intros P Q. induction P as [|p P [E [E0 IH]]].
  - destruct (HA 1 (le_n 1) (q * q)) as [K [K0 H]]; [nra|]. exists (0 + 2 * K). split; [lra|]. intros B b B' b' n k L1 L2 L3 L4. rewrite !phase_factor_1.
    apply cut_close; try lra; try assumption; try apply H. unfold Cminus. rewrite Cplus_opp_r, Cmod_0. lra.
  - assert (Q' : 0 < q ^ S p <= 1) by (split; [now apply pow_lt|now apply pow_le_1]).
    destruct (HA (S p) ltac:(lia) (q ^ S p * / 2 * q)) as [KA [KA0 HAp]]; [nra|]. destruct (dominated p (q * q) P) as [K [K0 HK]]; [nra|]. destruct (dominated p q P Q) as [K1 [K10 HK1]].
    exists (3 * (2 * KA * K1 + KA * (E + 2 * K))). split. { apply Rmult_le_pos; [lra|]. apply Rplus_le_le_0_compat; apply Rmult_le_pos; lra. }
    intros B b B' b' n k L1 L2 L3 L4. rewrite !phase_factor_S by lia. set (N := Nat.max b b').
    set (X := fun l => cut B (phase_factor B b A p) (k - Z.of_nat (S p) * l)%Z). set (X' := fun l => cut B' (phase_factor B' b' A p) (k - Z.of_nat (S p) * l)%Z).
    rewrite (csum_ext (sym b) _ (fun l => cut b (fun l => Cmult (X l) (A (S p) l)) l)) by (intros l Hl; apply in_sym in Hl; symmetry; now apply (cut_in b)).
    rewrite (csum_ext (sym b') _ (fun l => cut b' (fun l => Cmult (X' l) (A (S p) l)) l)) by (intros l Hl; apply in_sym in Hl; symmetry; now apply (cut_in b')).
    assert (W : forall c Y, (c <= N)%nat -> csum (sym c) (fun l => cut c (fun l => Cmult (Y l) (A (S p) l)) l) = csum (sym N) (fun l => Cmult (Y l) (cut c (A (S p)) l))).
    { intros c Y LC. rewrite (csum_ext (sym c) _ (fun l => Cmult (Y l) (A (S p) l))) by (intros l Hl; apply in_sym in Hl; now apply (cut_in c)). rewrite <- (csum_cut_sym N c) by assumption. apply csum_ext. intros l _. unfold cut. destruct (_ <=? _)%Z; [reflexivity|ring]. }
    rewrite !W by lia. unfold Cminus. rewrite <- csum_opp, <- csum_plus.
    eapply Rle_trans; [apply Cmod_csum|]. apply Rle_trans with (rsum (sym N) (fun l => (2 * KA * K1 + KA * (E + 2 * K)) * q ^ n * pw q k * pw (/ 2) l)).
    + apply rsum_le. intros l _. set (a := cut b (A (S p)) l). set (a' := cut b' (A (S p)) l). set (m := (k - Z.of_nat (S p) * l)%Z).
      replace (Cplus (Cmult (X l) a) (Copp (Cmult (X' l) a'))) with (Cplus (Cmult (X l) (Cminus a a')) (Cmult (Cminus (X l) (X' l)) a')) by ring.
      eapply Rle_trans; [apply Cmod_triangle|]. rewrite !Cmod_mult.
      assert (RA : 0 < q ^ S p * / 2) by lra. assert (HALF : 0 < pw (/ 2) l) by (apply pw_pos; lra). assert (QP : 0 < pw (q ^ S p) l) by (apply pw_pos; lra). assert (QM : 0 < pw q m) by (apply pw_pos; lra). assert (QN := pow_lt q n (proj1 Q)).
      assert (DA : Cmod (Cminus a a') <= (0 + 2 * KA) * q ^ n * pw (q ^ S p * / 2) l). { apply cut_close; try lra; try assumption; try apply HAp. unfold Cminus. rewrite Cplus_opp_r, Cmod_0. lra. }
      assert (DX : Cmod (Cminus (X l) (X' l)) <= (E + 2 * K) * q ^ n * pw q m). { apply cut_close; try lra; try assumption; try apply HK. now apply IH. }
      assert (BX : Cmod (X l) <= K1 * pw q m). { eapply Rle_trans; [apply Cmod_cut|apply HK1]. }
      assert (BA : Cmod a' <= KA * pw (q ^ S p * / 2) l). { eapply Rle_trans; [apply Cmod_cut|]. eapply Rle_trans; [apply HAp|]. rewrite pw_mult. assert (pw q l <= 1) by now apply pw_le_1. assert (0 < pw (q ^ S p * / 2) l) by now apply pw_pos. assert (0 <= KA * pw (q ^ S p * / 2) l) by (apply Rmult_le_pos; lra). nra. }
      rewrite pw_mult in DA, BA.
      assert (T := pw_shift q (S p) k l Q). fold m in T.
      apply Rle_trans with (K1 * pw q m * ((0 + 2 * KA) * q ^ n * (pw (q ^ S p) l * pw (/ 2) l)) + (E + 2 * K) * q ^ n * pw q m * (KA * (pw (q ^ S p) l * pw (/ 2) l))).
      { apply Rplus_le_compat; apply Rmult_le_compat; try apply Cmod_ge_0; assumption. }
      replace (K1 * pw q m * ((0 + 2 * KA) * q ^ n * (pw (q ^ S p) l * pw (/ 2) l)) + (E + 2 * K) * q ^ n * pw q m * (KA * (pw (q ^ S p) l * pw (/ 2) l))) with ((2 * KA * K1 + KA * (E + 2 * K)) * q ^ n * pw (/ 2) l * (pw q m * pw (q ^ S p) l)) by ring.
      replace ((2 * KA * K1 + KA * (E + 2 * K)) * q ^ n * pw q k * pw (/ 2) l) with ((2 * KA * K1 + KA * (E + 2 * K)) * q ^ n * pw (/ 2) l * pw q k) by ring.
      apply Rmult_le_compat_l; [|assumption]. apply Rmult_le_pos; [|lra]. apply Rmult_le_pos; [|lra]. apply Rplus_le_le_0_compat; apply Rmult_le_pos; lra.
    + rewrite rsum_scal. assert (S3 := half_sum_le N). assert (QN := pow_lt q n (proj1 Q)). assert (QK := pw_pos q k (proj1 Q)).
      assert (0 <= (2 * KA * K1 + KA * (E + 2 * K)) * q ^ n * pw q k). { apply Rmult_le_pos; [|lra]. apply Rmult_le_pos; [|lra]. apply Rplus_le_le_0_compat; apply Rmult_le_pos; lra. } nra.
Qed.
End decay.
