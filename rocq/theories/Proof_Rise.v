(** The direct current of a pumped junction rises with the drive level. *)
From Coq Require Import List ZArith Lia Bool Arith Reals Lra Psatz.
From Coquelicot Require Import Coquelicot.
From Verif Require Import Base Sums Bessel Float NumPy Model_CleanData Model_QtCurrent Spec_QtCurrent Spec_Power Proof_QtCurrent Proof_QtWit Proof_Bessel Proof_Bessel2 Proof_BesselVal Proof_Weights Proof_Power Proof_Power2 Proof_Power3 Proof_JacobiAnger
  Proof_Known Model_Tucker Model_ExpData Spec_ExpData Spec_Known Proof_Recover2 Spec_Rise.
Import ListNotations.
Open Scope R_scope.
Local Notation length := List.length.
Local Notation JZ := (besselZ besselJ).

(** ** Bounds of the power series *)
Lemma grow f f' u : 0 <= u -> (forall x, 0 <= x <= u -> is_derive f x (f' x)) -> (forall x, 0 <= x <= u -> 0 <= f' x) -> f 0 <= f u.
Proof.
  intros U D N. destruct (Req_dec u 0) as [-> | NU]; [lra|].
  destruct (MVT_gen f 0 u f') as [c [Hc E]].
  - intros x Hx. rewrite Rmin_left, Rmax_right in Hx by lra. apply D. lra.
  - intros x Hx. rewrite Rmin_left, Rmax_right in Hx by lra. apply derivable_continuous_pt. exists (f' x). apply is_derive_Reals. now apply D.
  - rewrite Rmin_left, Rmax_right in Hc by lra. specialize (N c Hc). nra.
Qed.
Lemma P_mvt n u : 0 <= u -> exists c, 0 <= c <= u /\ P n u = / INR (fact n) - P (S n) c * u.
Proof. intros U. destruct (Req_dec u 0) as [-> | N]. { exists 0. split; [lra|]. rewrite P_0. ring. } destruct (mvt_P n u ltac:(lra)) as [c [A B]]. exists c. split; [lra|]. now rewrite B, P_0. Qed.
Lemma exp_upper' : exp (81 / 64) < 39 / 10.
Proof.
  replace (81 / 64) with (9 / 16 + 9 / 16 + 9 / 64) by field. rewrite !exp_plus. pose proof exp_upper as X. pose proof (exp_pos (9 / 16)).
  assert (H' : exp (9 / 64) <= 64 / 55). { assert (L := exp_ineq1_le (- (9 / 64))). rewrite exp_Ropp in L. pose proof (exp_pos (9 / 64)). apply Rmult_le_reg_r with (/ exp (9 / 64)); [now apply Rinv_0_lt_compat|]. rewrite Rinv_r by lra. lra. }
  pose proof (exp_pos (9 / 64)). assert (exp (9 / 16) * exp (9 / 16) <= 256 / 81) by nra. nra.
Qed.
Lemma fact_S n : / INR (fact n) = INR (S n) * / INR (fact (S n)).
Proof. rewrite fact_simpl, mult_INR. pose proof (INR_fact_neq_0 n). assert (INR (S n) <> 0) by (apply not_0_INR; lia). field. split; assumption. Qed.
Lemma fact_inv n : 0 < / INR (fact n). Proof. apply Rinv_0_lt_compat, INR_fact_lt_0. Qed.
Lemma P_pos_high n u : (4 <= n)%nat -> 0 <= u <= 81 / 64 -> 0 < P n u.
Proof.
  intros N H. destruct (P_mvt n u ltac:(lra)) as [d [Hd E]]. rewrite E. assert (B := P_bound (S n) d ltac:(lra)).
  assert (X : exp d <= exp (81 / 64)). { destruct (Rle_lt_or_eq_dec d (81 / 64) ltac:(lra)) as [L | ->]; [left; now apply exp_increasing|lra]. }
  pose proof exp_upper' as XU. assert (F := fact_inv (S n)). rewrite fact_S. assert (F1 : 5 <= INR (S n)) by (change 5 with (IZR (Z.of_nat 5)); rewrite <- INR_IZR_INZ; apply le_INR; lia).
  assert (B2 : P (S n) d < 39 / 10 * / INR (fact (S n))). { eapply Rle_lt_trans; [apply Rle_abs|]. eapply Rle_lt_trans; [exact B|]. apply Rmult_lt_compat_r; lra. }
  set (p := P (S n) d) in *. set (f := / INR (fact (S n))) in *. set (k := INR (S n)) in *. clearbody p f k. clear - B2 H F F1. destruct (Rle_lt_dec p 0); [nra|].
  assert (p * u <= 39 / 10 * f * (81 / 64)) by nra. nra.
Qed.
Lemma P_le_from n u : (forall c, 0 <= c <= 81 / 64 -> 0 < P (S n) c) -> 0 <= u <= 81 / 64 -> P n u <= / INR (fact n).
Proof. intros S' H. destruct (P_mvt n u ltac:(lra)) as [d [Hd E]]. rewrite E. specialize (S' d ltac:(lra)). nra. Qed.
Lemma P_pos_from n u : (1 <= n)%nat -> (forall c, 0 <= c <= 81 / 64 -> P (S n) c <= / INR (fact (S n))) -> 0 <= u <= 81 / 64 -> 0 < P n u.
Proof.
  intros N S' H. destruct (P_mvt n u ltac:(lra)) as [d [Hd E]]. rewrite E. specialize (S' d ltac:(lra)). rewrite fact_S. assert (F := fact_inv (S n)). assert (2 <= INR (S n)) by (change 2 with (INR 2); apply le_INR; lia). 
  set (p := P (S n) d) in *. set (f := / INR (fact (S n))) in *. set (k := INR (S n)) in *. clearbody p f k. clear - S' H F H0. assert (p * u <= f * u) by nra. nra.
Qed.
Lemma P_pos_1 n u : (1 <= n)%nat -> 0 <= u <= 81 / 64 -> 0 < P n u.
Proof.
  intros N. revert u. assert (A4 : forall m, (4 <= m)%nat -> forall u, 0 <= u <= 81 / 64 -> 0 < P m u) by (intros; now apply P_pos_high).
  assert (L4 : forall u, 0 <= u <= 81 / 64 -> P 4 u <= / INR (fact 4)) by (intros u; apply P_le_from, A4; lia).
  assert (A3 : forall u, 0 <= u <= 81 / 64 -> 0 < P 3 u) by (intros u; apply P_pos_from; [lia|exact L4]).
  assert (L3 : forall u, 0 <= u <= 81 / 64 -> P 3 u <= / INR (fact 3)) by (intros u; apply P_le_from, A4; lia).
  assert (A2 : forall u, 0 <= u <= 81 / 64 -> 0 < P 2 u) by (intros u; apply P_pos_from; [lia|exact L3]).
  assert (L2 : forall u, 0 <= u <= 81 / 64 -> P 2 u <= / INR (fact 2)) by (intros u; apply P_le_from, A3).
  assert (A1 : forall u, 0 <= u <= 81 / 64 -> 0 < P 1 u) by (intros u; apply P_pos_from; [lia|exact L2]).
  destruct n as [|[|[|[|n]]]]; [lia|exact A1|exact A2|exact A3|apply A4; lia].
Qed.
Lemma P_le n u : 0 <= u <= 81 / 64 -> P n u <= / INR (fact n).
Proof. apply P_le_from. intros c. apply P_pos_1. lia. Qed.
Lemma P2_lower u : 0 <= u <= 81 / 64 -> 1 / 2 - u / 6 <= P 2 u.
Proof. intros H. destruct (P_mvt 2 u ltac:(lra)) as [d [Hd E]]. rewrite E. assert (B := P_le 3 d ltac:(lra)). change (fact 2) with 2%nat. change (fact 3) with 6%nat in B. replace (INR 6) with 6 in B by (cbn; lra). change (INR 2) with 2. nra. Qed.
Lemma P1_upper u : 0 <= u <= 81 / 64 -> P 1 u <= 1 - u / 2 + u ^ 2 / 12.
Proof.
  intros H. assert (G := grow (fun x => 1 - x / 2 + x ^ 2 / 12 - P 1 x) (fun x => P 2 x - (1 / 2 - x / 6)) u ltac:(lra)). cbv beta in G. rewrite P_0 in G. change (INR (fact 1)) with 1 in G. assert (X : 1 - 0 / 2 + 0 ^ 2 / 12 - / 1 = 0) by field. rewrite X in G.
  enough (0 <= 1 - u / 2 + u ^ 2 / 12 - P 1 u) by lra. apply G.
  - intros x _. evar_last. { apply @is_derive_minus; [|apply P_derive]. auto_derive; [exact I|reflexivity]. } unfold minus, plus, opp; cbn. field.
  - intros x Hx. pose proof (P2_lower x ltac:(lra)). lra.
Qed.
Lemma P1_lower' u : 0 <= u <= 81 / 64 -> 1 - u / 2 <= P 1 u.
Proof. intros H. destruct (P_mvt 1 u ltac:(lra)) as [d [Hd E]]. rewrite E. assert (B := P_le 2 d ltac:(lra)). change (INR (fact 2)) with 2 in B. change (INR (fact 1)) with 1. nra. Qed.
Lemma P0_lower u : 0 <= u <= 81 / 64 -> 1 - u + u ^ 2 / 4 - u ^ 3 / 36 <= P 0 u.
Proof.
  intros H. assert (G := grow (fun x => P 0 x - (1 - x + x ^ 2 / 4 - x ^ 3 / 36)) (fun x => (1 - x / 2 + x ^ 2 / 12) - P 1 x) u ltac:(lra)). cbv beta in G. rewrite P_0 in G. change (INR (fact 0)) with 1 in G. assert (X : / 1 - (1 - 0 + 0 ^ 2 / 4 - 0 ^ 3 / 36) = 0) by field. rewrite X in G.
  enough (0 <= P 0 u - (1 - u + u ^ 2 / 4 - u ^ 3 / 36)) by lra. apply G.
  - intros x _. evar_last. { apply @is_derive_minus; [apply P_derive|]. auto_derive; [exact I|reflexivity]. } unfold minus, plus, opp; cbn. field.
  - intros x Hx. pose proof (P1_upper x ltac:(lra)). lra.
Qed.
Lemma P0_upper u : 0 <= u <= 81 / 64 -> P 0 u <= 1 - u + u ^ 2 / 4.
Proof.
  intros H. assert (G := grow (fun x => 1 - x + x ^ 2 / 4 - P 0 x) (fun x => P 1 x - (1 - x / 2)) u ltac:(lra)). cbv beta in G. rewrite P_0 in G. change (INR (fact 0)) with 1 in G. assert (X : 1 - 0 + 0 ^ 2 / 4 - / 1 = 0) by field. rewrite X in G.
  enough (0 <= 1 - u + u ^ 2 / 4 - P 0 u) by lra. apply G.
  - intros x _. evar_last. { apply @is_derive_minus; [|apply P_derive]. auto_derive; [exact I|reflexivity]. } unfold minus, plus, opp; cbn. field.
  - intros x Hx. pose proof (P1_lower' x ltac:(lra)). lra.
Qed.
Lemma P0_lower' u : 0 <= u <= 81 / 64 -> 1 - u <= P 0 u.
Proof. intros H. destruct (P_mvt 0 u ltac:(lra)) as [d [Hd E]]. rewrite E. assert (B := P_le 1 d ltac:(lra)). change (INR (fact 1)) with 1 in B. change (INR (fact 0)) with 1. nra. Qed.
Lemma P0_pos u : 0 <= u <= 81 / 64 -> 78 / 1000 <= P 0 u.
Proof.
  intros H. eapply Rle_trans; [|apply P0_lower; exact H].
  assert (X : (1 - u + u ^ 2 / 4 - u ^ 3 / 36) - (1 - 81 / 64 + (81 / 64) ^ 2 / 4 - (81 / 64) ^ 3 / 36) = (81 / 64 - u) * (1 - (u + 81 / 64) / 4 + (u ^ 2 + u * (81 / 64) + (81 / 64) ^ 2) / 36)) by field.
  assert (0 <= (81 / 64 - u) * (1 - (u + 81 / 64) / 4 + (u ^ 2 + u * (81 / 64) + (81 / 64) ^ 2) / 36)) by (apply Rmult_le_pos; [lra|nra]). lra.
Qed.
Lemma P_pos n u : 0 <= u <= 81 / 64 -> 0 < P n u.
Proof. intros H. destruct n; [pose proof (P0_pos u H); lra|apply P_pos_1; [lia|exact H]]. Qed.

(** ** Products of neighbours *)
Lemma small_u x : 0 <= x <= 9 / 4 -> 0 <= (x / 2) ^ 2 <= 81 / 64.
Proof. intros H. split; [apply pow2_ge_0|]. simpl. nra. Qed.
Theorem J_pos n x : 0 < x <= 9 / 4 -> 0 < besselJ n x.
Proof. intros H. rewrite J_P. apply Rmult_lt_0_compat; [apply pow_lt; lra|apply P_pos, small_u; lra]. Qed.
Definition near2 (n : nat) (x : R) : R := besselJ n x * besselJ (S n) x.
Lemma near2_lower x : 0 < x <= 9 / 4 -> x / 2 * (28 / 1000) <= near2 0 x.
Proof.
  intros H. unfold near2. rewrite !J_P. assert (U := small_u x ltac:(lra)). assert (A := P0_pos _ U). assert (B := P1_lower' _ U). set (u := (x / 2) ^ 2) in *. set (p := P 0 u) in *. set (q := P 1 u) in *. clearbody p q. simpl pow.
  assert (28 / 1000 <= p * q) by nra. assert (x / 2 * (28 / 1000) <= x / 2 * (p * q)) by (apply Rmult_le_compat_l; lra). lra.
Qed.
Lemma near2_form n x : near2 n x = x / 2 * (((x / 2) ^ 2) ^ n * (P n ((x / 2) ^ 2) * P (S n) ((x / 2) ^ 2))).
Proof. unfold near2. rewrite !J_P, <- pow_mult. replace (2 * n)%nat with (n + n)%nat by lia. rewrite pow_add. cbn [pow]. ring. Qed.
Lemma near2_upper n x : 0 <= x <= 9 / 4 -> 0 <= near2 n x <= x / 2 * (((x / 2) ^ 2) ^ n * (/ INR (fact n) * / INR (fact (S n)))).
Proof.
  intros H. rewrite near2_form. assert (U := small_u x H). assert (A := P_le n _ U). assert (B := P_le (S n) _ U). assert (A0 := P_pos n _ U). assert (B0 := P_pos (S n) _ U). assert (W := pow_le _ n (proj1 U)).
  split; [apply Rmult_le_pos; [lra|apply Rmult_le_pos; [exact W|nra]]|]. apply Rmult_le_compat_l; [lra|]. apply Rmult_le_compat_l; [exact W|]. apply Rmult_le_compat; lra.
Qed.
Lemma weight_pos n : 0 < weight n.
Proof. unfold weight. apply Rmult_lt_0_compat; [apply pow_lt; lra|]. apply Rinv_0_lt_compat, Rmult_lt_0_compat; apply INR_fact_lt_0. Qed.
Lemma near2_weight n x : 0 <= x <= 9 / 4 -> 0 <= near2 n x <= x / 2 * weight n.
Proof.
  intros H. destruct (near2_upper n x H) as [A B]. split; [exact A|]. eapply Rle_trans; [exact B|]. apply Rmult_le_compat_l; [lra|]. replace (weight n) with ((81 / 64) ^ n * (/ INR (fact n) * / INR (fact (S n)))) by (unfold weight; set (w := (81 / 64) ^ n); unfold Rdiv; now rewrite Rinv_mult). apply Rmult_le_compat_r; [apply Rmult_le_pos; left; apply fact_inv|]. apply pow_incr, small_u, H.
Qed.

(** ** More photons than n *)
Definition tail (n : nat) (x : R) : R := (1 - squares n x) / 2.
Lemma tail_derive n x : is_derive (tail n) x (near2 n x).
Proof. unfold tail. evar_last. { apply (is_derive_ext (fun x => / 2 * (1 - squares n x))); [intros t; change (/ 2 * (1 - squares n t) = (1 - squares n t) / 2); field|]. apply is_derive_scal. apply @is_derive_minus; [apply @is_derive_const|apply squares_derive]. } unfold near2, minus, plus, opp, zero; cbn -[besselJ]. field. Qed.
Lemma tail_0 n : tail n 0 = 0.
Proof. unfold tail. rewrite squares_0. field. Qed.
Lemma tail_nonneg n x : 0 <= tail n x.
Proof. unfold tail. pose proof (squares_le_1 n x). lra. Qed.
Lemma tail_S n x : tail n x - tail (S n) x = besselJ (S n) x ^ 2.
Proof. unfold tail. cbn [squares]. field. Qed.
Lemma tail_le n m x : (n <= m)%nat -> tail m x <= tail n x.
Proof. induction 1 as [|m H IH]; [lra|]. pose proof (tail_S m x). pose proof (pow2_ge_0 (besselJ (S m) x)). lra. Qed.
Lemma tail_upper n x : 0 <= x <= 9 / 4 -> tail n x <= ((x / 2) ^ 2) ^ S n * (/ INR (fact (S n)) * / INR (fact (S n))).
Proof.
  intros H. assert (G := grow (fun y => ((y / 2) ^ 2) ^ S n * (/ INR (fact (S n)) * / INR (fact (S n))) - tail n y) (fun y => y / 2 * (((y / 2) ^ 2) ^ n * (/ INR (fact n) * / INR (fact (S n)))) - near2 n y) x ltac:(lra)).
  cbv beta in G. rewrite tail_0 in G. replace (((0 / 2) ^ 2) ^ S n * (/ INR (fact (S n)) * / INR (fact (S n))) - 0) with 0 in G by (cbn [pow]; unfold Rdiv; ring).
  enough (0 <= ((x / 2) ^ 2) ^ S n * (/ INR (fact (S n)) * / INR (fact (S n))) - tail n x) by lra. apply G.
  - intros y _. apply @is_derive_minus; [|apply tail_derive]. rewrite (fact_S n). set (f := / INR (fact (S n))). set (k := INR (S n)).
    assert (D : is_derive (fun y => (y / 2) ^ 2) y (y / 2)) by (auto_derive; [exact I|field]).
    assert (D2 := is_derive_pow (fun y => (y / 2) ^ 2) (S n) y _ D). cbn [Nat.pred] in D2. fold k in D2.
    apply (is_derive_ext (fun y => (f * f) * ((y / 2) ^ 2) ^ S n)); [intros t; change (f * f * ((t / 2) ^ 2) ^ S n = ((t / 2) ^ 2) ^ S n * (f * f)); ring|].
    evar_last; [apply is_derive_scal, D2|]. cbv beta. set (w := ((y / 2) ^ 2) ^ n). ring.
  - intros y Hy. destruct (near2_upper n y ltac:(lra)). lra.
Qed.

(** ** The current as a sum of gains *)
Section Gains.
Variables (idc : R -> R) (vph v : R).
Notation pr := (pair idc vph v).
Notation gn := (gain idc vph v).
Definition cur (b : nat) (x : R) : R := pumped_iv besselJ idc vph x b v.
Lemma cur_S b x : cur (S b) x = cur b x + besselJ (S b) x ^ 2 * pr (S b).
Proof.
  unfold cur. rewrite !pumped_sum, rsum_sym_S. f_equal. rewrite JZ_nat. assert (E : JZ (- Z.of_nat (S b)) x ^ 2 = besselJ (S b) x ^ 2).
  { rewrite JZ_neg, JZ_nat, Rpow_mult_distr, <- pow_mult, Nat.mul_comm, pow_mult. replace ((-1) ^ 2) with 1 by ring. rewrite pow1. ring. }
  rewrite E. unfold pair. rewrite opp_IZR, <- INR_IZR_INZ. replace (v + - INR (S b) * vph) with (v - INR (S b) * vph) by ring. ring.
Qed.
Lemma cur_0 x : cur 0 x = besselJ 0 x ^ 2 * idc v.
Proof. unfold cur. rewrite pumped_sum. change (sym 0) with [0%Z]. cbn [rsum]. rewrite (JZ_nat 0). replace (v + IZR 0 * vph) with v by ring. ring. Qed.
Lemma pair_0 : pr 0 = 2 * idc v.
Proof. unfold pair. cbn [INR]. rewrite Rmult_0_l, Rplus_0_r, Rminus_0_r. ring. Qed.
Theorem gains b x : cur b x = idc v + rsum (seq 0 b) (fun n => tail n x * gn n) - tail b x * pr b.
Proof.
  induction b as [|b IH].
  - rewrite cur_0, pair_0. cbn [seq rsum]. unfold tail. cbn [squares]. field.
  - rewrite cur_S, IH, seq_S, rsum_app. cbn [rsum]. rewrite Nat.add_0_l. rewrite <- (tail_S b x). unfold gain. ring.
Qed.
Lemma cur_derive b x : is_derive (cur b) x (rsum (seq 0 b) (fun n => near2 n x * gn n) - near2 b x * pr b).
Proof.
  apply (is_derive_ext (fun x => (idc v + rsum (seq 0 b) (fun n => tail n x * gn n)) - tail b x * pr b)); [intros t; symmetry; apply gains|].
  evar_last. { apply @is_derive_minus; [apply @is_derive_plus; [apply @is_derive_const|]|].
    - apply (derive_rsum (seq 0 b) (fun n x => tail n x * gn n) (fun n => near2 n x * gn n)). intros n. evar_last; [apply (is_derive_mult (tail n) (fun _ => gn n) x); [apply tail_derive|apply @is_derive_const|intros; apply Rmult_comm]|]. change plus with Rplus. change mult with Rmult. change zero with 0. ring.
    - apply (is_derive_mult (tail b) (fun _ => pr b) x); [apply tail_derive|apply @is_derive_const|intros; apply Rmult_comm]. }
  unfold minus. change plus with Rplus. change mult with Rmult. change zero with 0. change opp with Ropp. ring.
Qed.
Lemma sum_to_rsum b f : sum_to b f = rsum (seq 1 (b - 1)) f.
Proof. unfold sum_to. apply fold_rsum. Qed.
Lemma head_sum b f : (1 <= b)%nat -> rsum (seq 0 b) f = f O + rsum (seq 1 (b - 1)) f.
Proof. intros H. destruct b; [lia|]. cbn [seq rsum]. now rewrite Nat.sub_succ, Nat.sub_0_r. Qed.
Variable b : nat.
Hypothesis HB : (1 <= b)%nat.
Hypothesis F : first_step idc vph b v.
(** With coefficients c between 0 and k times the weights. *)
Lemma combo (c : nat -> R) k : 0 <= k -> (forall n, (1 <= n)%nat -> 0 <= c n <= k * weight n) -> - (k * (gn 0 / 50)) <= rsum (seq 1 (b - 1)) (fun n => c n * gn n) - c b * pr b.
Proof.
  intros K H. destruct F as (F0 & _ & F2). rewrite sum_to_rsum in F2.
  apply Rle_trans with (- (k * (rsum (seq 1 (b - 1)) (fun n => weight n * Rmax 0 (- gn n)) + weight b * Rabs (pr b)))).
  - apply Ropp_le_contravar, Rmult_le_compat_l; assumption.
  - rewrite Rmult_plus_distr_l. assert (E : c b * pr b <= k * (weight b * Rabs (pr b))).
    { destruct (H b HB) as [A B]. pose proof (Rle_abs (pr b)). pose proof (Rabs_pos (pr b)). apply Rle_trans with (c b * Rabs (pr b)); [now apply Rmult_le_compat_l|]. rewrite <- Rmult_assoc. now apply Rmult_le_compat_r. }
    assert (E2 : - (k * rsum (seq 1 (b - 1)) (fun n => weight n * Rmax 0 (- gn n))) <= rsum (seq 1 (b - 1)) (fun n => c n * gn n)).
    { rewrite <- Ropp_mult_distr_l_reverse, <- rsum_scal. apply rsum_le. intros n Hn. apply in_seq in Hn. destruct (H n ltac:(lia)) as [A B]. assert (M1 := Rmax_l 0 (- gn n)). assert (M2 := Rmax_r 0 (- gn n)). set (m := Rmax 0 (- gn n)) in *. clearbody m. assert (c n * m <= k * weight n * m) by now apply Rmult_le_compat_r. assert (0 <= c n * (m + gn n)) by (apply Rmult_le_pos; lra). lra. }
    lra.
Qed.
Theorem rising x y : 0 <= x -> x < y -> y <= 9 / 4 -> cur b x < cur b y.
Proof.
  intros X XY Y. destruct (MVT_cor2 (cur b) (fun x => rsum (seq 0 b) (fun n => near2 n x * gn n) - near2 b x * pr b) x y XY) as (c & E & Hc).
  { intros c Hc. apply is_derive_Reals, cur_derive. }
  enough (0 < rsum (seq 0 b) (fun n => near2 n c * gn n) - near2 b c * pr b) by nra. rewrite head_sum by exact HB.
  assert (L := combo (fun n => near2 n c) (c / 2) ltac:(lra) (fun n _ => near2_weight n c ltac:(lra))). assert (N := near2_lower c ltac:(lra)). destruct F as (F0 & _ & _).
  assert (c / 2 * (28 / 1000) * gn 0 <= near2 0 c * gn 0) by (apply Rmult_le_compat_r; lra). assert (0 < c / 2 * gn 0) by (apply Rmult_lt_0_compat; lra). lra.
Qed.
Lemma steep x y : 0 <= x -> x <= y -> y <= 3 / 2 -> gn 0 / 14 * (y ^ 2 - x ^ 2) <= cur b y - cur b x.
Proof.
  intros X XY Y. destruct (Req_dec x y) as [-> | NE]; [lra|].
  destruct (MVT_cor2 (fun z => cur b z - gn 0 / 14 * z ^ 2) (fun z => rsum (seq 0 b) (fun n => near2 n z * gn n) - near2 b z * pr b - gn 0 / 7 * z) x y ltac:(lra)) as (c & E & Hc).
  { intros c Hc. apply is_derive_Reals. apply @is_derive_minus; [apply cur_derive|]. auto_derive; [exact I|]. field. }
  enough (0 <= rsum (seq 0 b) (fun n => near2 n c * gn n) - near2 b c * pr b - gn 0 / 7 * c) by nra. rewrite head_sum by exact HB.
  assert (L := combo (fun n => near2 n c) (c / 2) ltac:(lra) (fun n _ => near2_weight n c ltac:(lra))). destruct F as (F0 & _ & _).
  assert (N : c / 2 * (314 / 1000) <= near2 0 c).
  { rewrite near2_form. cbn [pow]. rewrite !Rmult_1_l, !Rmult_1_r. assert (U : 0 <= c / 2 * (c / 2) <= 9 / 16) by nra. set (u := c / 2 * (c / 2)) in *. assert (A := P0_lower' u ltac:(lra)). assert (B := P1_lower' u ltac:(lra)). set (p := P 0 u) in *. set (q := P 1 u) in *. clearbody p q u. apply Rmult_le_compat_l; [lra|]. nra. }
  assert (c / 2 * (314 / 1000) * gn 0 <= near2 0 c * gn 0) by (apply Rmult_le_compat_r; lra). assert (0 < c / 2 * gn 0) by (apply Rmult_lt_0_compat; lra). lra.
Qed.
Lemma cur_at_0 : cur b 0 = idc v.
Proof. rewrite gains, tail_0. rewrite (rsum_ext _ _ (fun _ => 0)) by (intros; rewrite tail_0; ring). rewrite Rmult_0_l. clear. induction (seq 0 b) as [|k l IH]; cbn [rsum]; lra. Qed.
Lemma attained A i : 0 <= A -> idc v <= i <= cur b A -> exists s, 0 <= s <= A /\ cur b s = i.
Proof.
  intros HA HI. destruct (IVT_gen (cur b) 0 A i) as (s & S1 & S2).
  - intros x. apply derivable_continuous_pt. eexists. apply is_derive_Reals, cur_derive.
  - rewrite cur_at_0, Rmin_left, Rmax_right by lra. exact HI.
  - rewrite Rmin_left, Rmax_right in S1 by lra. eauto.
Qed.
(** ** How far it has risen *)
Lemma tail_weight n x : 0 <= x <= 9 / 4 -> 0 <= tail n x <= (x / 2) ^ 2 * weight n.
Proof.
  intros H. split; [apply tail_nonneg|]. eapply Rle_trans; [now apply tail_upper|]. assert (U := small_u x H). set (u := (x / 2) ^ 2) in *. clearbody u. rewrite <- tech_pow_Rmult, Rmult_assoc. apply Rmult_le_compat_l; [lra|].
  replace (weight n) with ((81 / 64) ^ n * (/ INR (fact n) * / INR (fact (S n)))) by (unfold weight; set (w := (81 / 64) ^ n); unfold Rdiv; now rewrite Rinv_mult).
  assert (A := fact_inv (S n)). assert (B : / INR (fact (S n)) <= / INR (fact n)). { rewrite (fact_S n). assert (1 <= INR (S n)) by (rewrite S_INR; pose proof (pos_INR n); lra). nra. }
  apply Rmult_le_compat; [apply pow_le; lra|apply Rmult_le_pos; lra|apply pow_incr; lra|]. now apply Rmult_le_compat_r; [lra|].
Qed.
Lemma tail0_between x : 0 <= x <= 3 / 2 -> let u := (x / 2) ^ 2 in 617 / 1000 * u <= tail 0 x <= u - u ^ 2 / 2.
Proof.
  intros H u. unfold tail. cbn [squares]. rewrite J_P. assert (U : 0 <= u <= 9 / 16) by (unfold u; split; [apply pow2_ge_0|simpl; nra]). assert (A := P0_lower' u ltac:(lra)). assert (B := P0_upper u ltac:(lra)). fold u. set (p := P 0 u) in *. clearbody p u. cbn [pow]. rewrite !Rmult_1_l, !Rmult_1_r. split.
  - assert (Z : 0 <= 1 - p) by nra. assert (u * (1 - u / 4) <= 1 - p) by nra. assert (2 - u <= 1 + p) by lra. assert (u * (1 - u / 4) * (2 - u) <= (1 - p) * (1 + p)) by (apply Rmult_le_compat; nra).
    assert (1234 / 1000 <= (1 - u / 4) * (2 - u)) by nra. nra.
  - nra.
Qed.
Lemma risen x : 0 <= x <= 3 / 2 -> let u := (x / 2) ^ 2 in 597 / 1000 * u * gn 0 <= cur b x - idc v <= 102 / 100 * u * gn 0.
Proof.
  intros H u. rewrite gains, head_sum by exact HB. assert (U : 0 <= u <= 9 / 16) by (unfold u; split; [apply pow2_ge_0|simpl; nra]). destruct (tail0_between x H) as [T1 T2]. fold u in T1, T2. destruct F as (F0 & F1 & F2). split.
  - assert (L := combo (fun n => tail n x) u ltac:(lra) (fun n _ => tail_weight n x ltac:(lra))). assert (617 / 1000 * u * gn 0 <= tail 0 x * gn 0) by (apply Rmult_le_compat_r; lra). lra.
  - assert (E : - (tail b x * pr b) <= u * (gn 0 / 50)).
    { apply Rle_trans with (u * (weight b * Rabs (pr b))).
      - destruct (tail_weight b x ltac:(lra)) as [A B]. fold u in B. pose proof (Rabs_pos (pr b)). assert (Q : - pr b <= Rabs (pr b)) by (rewrite <- Rabs_Ropp; apply Rle_abs). rewrite <- Ropp_mult_distr_r_reverse. apply Rle_trans with (tail b x * Rabs (pr b)); [now apply Rmult_le_compat_l|]. rewrite <- Rmult_assoc. now apply Rmult_le_compat_r.
      - apply Rmult_le_compat_l; [lra|]. assert (0 <= sum_to b (fun n => weight n * Rmax 0 (- gn n))); [|lra]. rewrite sum_to_rsum. apply rsum_nonneg. intros n _. apply Rmult_le_pos; [left; apply weight_pos|apply Rmax_l]. }
    assert (T3 : tail 1 x <= u ^ 2 / 4). { eapply Rle_trans; [apply tail_upper; lra|]. fold u. change (INR (fact 2)) with 2. lra. }
    assert (E2 : rsum (seq 1 (b - 1)) (fun n => tail n x * gn n) <= u ^ 2 / 4 * (2 * gn 0)).
    { apply Rle_trans with (tail 1 x * rsum (seq 1 (b - 1)) (fun n => Rmax 0 (gn n))).
      - rewrite <- rsum_scal. apply rsum_le. intros n Hn. apply in_seq in Hn. pose proof (tail_le 1 n x ltac:(lia)). pose proof (tail_nonneg n x). pose proof (Rmax_l 0 (gn n)). pose proof (Rmax_r 0 (gn n)). apply Rle_trans with (tail n x * Rmax 0 (gn n)); [now apply Rmult_le_compat_l|now apply Rmult_le_compat_r].
      - rewrite sum_to_rsum in F1. apply Rmult_le_compat; [apply tail_nonneg|apply rsum_nonneg; intros; apply Rmax_l|exact T3|exact F1]. }
    assert (tail 0 x * gn 0 <= (u - u ^ 2 / 2) * gn 0) by (apply Rmult_le_compat_r; lra). nra.
Qed.
Theorem guess_near A t : 0 < A <= 3 / 2 -> 0 <= t <= A ->
  Rabs (Rmax 0 ((cur b t - idc v) / (cur b A - idc v) * A) - t) <= A / 2.
Proof.
  intros HA HT. destruct (risen t ltac:(lra)) as [L1 U1]. destruct (risen A ltac:(lra)) as [L2 U2]. destruct F as (F0 & _ & _). set (g := gn 0) in *. set (Gt := cur b t - idc v) in *. set (GA := cur b A - idc v) in *.
  assert (GP : 0 < GA). { eapply Rlt_le_trans; [|exact L2]. repeat apply Rmult_lt_0_compat; lra. }
  assert (MT : Gt <= GA). { unfold Gt, GA. destruct (Req_dec t A) as [-> | N]; [lra|]. pose proof (rising t A). lra. }
  assert (G0 : 0 <= Gt). { eapply Rle_trans; [|exact L1]. assert (0 <= (t / 2) ^ 2) by apply pow2_ge_0. apply Rmult_le_pos; lra. }
  set (r := Gt / GA). assert (ER : Gt = r * GA) by (unfold r; field; lra). assert (R0 : 0 <= r) by (apply Rmult_le_pos; [exact G0|left; now apply Rinv_0_lt_compat]).
  assert (R1 : r <= 1) by nra. rewrite Rmax_right by nra. clearbody r Gt GA g. cbn [pow] in *. rewrite !Rmult_1_r in *.
  apply Rabs_le. split.
  - assert (K : 597 / 1000 * (t / 2 * (t / 2)) <= r * (102 / 100 * (A / 2 * (A / 2)))).
    { apply Rmult_le_reg_r with g; [exact F0|]. assert (r * GA <= r * (102 / 100 * (A / 2 * (A / 2)) * g)) by now apply Rmult_le_compat_l. lra. }
    assert (597 * (t * t) <= 1020 * (r * (A * A))) by lra. enough (0 <= A * (r * A - t + A / 2)) by nra. assert (0 <= (t - 85 / 100 * A) ^ 2) by apply pow2_ge_0. nra.
  - destruct (Rle_lt_dec (A / 2) t); [nra|].
    assert (K : r * (597 / 1000 * (A / 2 * (A / 2))) <= 102 / 100 * (t / 2 * (t / 2))).
    { apply Rmult_le_reg_r with g; [exact F0|]. assert (r * (597 / 1000 * (A / 2 * (A / 2)) * g) <= r * GA) by now apply Rmult_le_compat_l. lra. }
    enough (r <= 1 / 2) by nra. assert (t * t <= A * A / 4) by nra. assert (0 < A * A) by nra. nra.
Qed.
End Gains.
Theorem first_findable idc vph b v A t : (1 <= b)%nat -> first_step idc vph b v -> 0 < A <= 3 / 2 -> 0 <= t <= A -> findable idc vph b A v (dc_current idc vph b v t) t.
Proof.
  intros B F HA HT. unfold findable. rewrite !dc_is. split; [reflexivity|]. split.
  - intros x y X XY Y. rewrite !dc_is. apply (rising idc vph v b B F); lra.
  - apply (guess_near idc vph v b B F A t HA HT).
Qed.
Theorem first_finds idc v i vph amax nb l k t : length v = length i -> find_alpha besselJ idc v i vph amax nb = Ok l -> (k < length v)%nat -> (1 <= nb)%nat ->
  first_step idc vph nb (nth k v 0) -> 0 < amax <= 3 / 2 -> 0 <= t <= amax -> pumped_iv besselJ idc vph t nb (nth k v 0) = nth k i 0 -> Rabs (nth k l 0 - t) <= amax / 2 ^ 16.
Proof.
  intros L E K B F HA HT P. apply (alpha_converges besselJ idc v i vph amax nb l k t L E); [lra|exact K|lra|exact P| |].
  - intros x y X XY Y. apply (rising idc vph (nth k v 0) nb B F); lra.
  - rewrite <- P. apply (guess_near idc vph (nth k v 0) nb B F amax t HA HT).
Qed.

Theorem first_noise idc v i vph amax nb l k : length v = length i -> find_alpha besselJ idc v i vph amax nb = Ok l -> (k < length v)%nat -> (1 <= nb)%nat ->
  first_step idc vph nb (nth k v 0) -> 0 < amax <= 3 / 2 -> idc (nth k v 0) <= nth k i 0 <= dc_current idc vph nb (nth k v 0) amax ->
  exists s, 0 <= s <= amax /\ dc_current idc vph nb (nth k v 0) s = nth k i 0 /\ Rabs (nth k l 0 - s) <= amax / 2 ^ 16 /\
    forall t, 0 <= t <= 3 / 2 -> gain idc vph (nth k v 0) 0 / 14 * Rabs (s ^ 2 - t ^ 2) <= Rabs (nth k i 0 - dc_current idc vph nb (nth k v 0) t).
Proof.
  intros L E K B F HA HI. rewrite dc_is in HI. destruct (attained idc vph (nth k v 0) nb amax (nth k i 0) ltac:(lra) HI) as (s & S1 & S2). exists s. rewrite dc_is. split; [exact S1|]. split; [exact S2|]. split.
  - apply (first_finds idc v i vph amax nb l k s L E K B F HA S1 S2).
  - intros t T. rewrite dc_is, <- S2. fold (cur idc vph (nth k v 0) nb t). destruct F as (F0 & F'). assert (F : first_step idc vph nb (nth k v 0)) by (split; assumption).
    destruct (Rle_lt_dec s t) as [O | O].
    + assert (Q := steep idc vph (nth k v 0) nb B F s t ltac:(lra) O ltac:(lra)). rewrite (Rabs_left1 (s ^ 2 - t ^ 2)) by nra. rewrite <- (Rabs_Ropp (_ - _)). eapply Rle_trans; [|apply Rle_abs]. lra.
    + assert (Q := steep idc vph (nth k v 0) nb B F t s ltac:(lra) ltac:(lra) ltac:(lra)). rewrite (Rabs_pos_eq (s ^ 2 - t ^ 2)) by nra. eapply Rle_trans; [|apply Rle_abs]. lra.
Qed.
