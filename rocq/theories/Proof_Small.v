(** Small drive levels. *)
From Coq Require Import List ZArith Lia Bool Arith Reals Lra Psatz.
From Coquelicot Require Import Coquelicot.
From Verif Require Import Base Sums Round Bessel Model_QtCurrent Spec_QtCurrent Spec_QtApi Spec_Power Proof_QtCurrent
  Proof_QtCurrent2 Proof_QtSym Proof_QtApi Proof_QtApi2 Proof_QtWit Proof_Bessel Proof_Bessel2 Proof_BesselVal Proof_Weights Proof_Power Proof_Power2 Proof_Power3 Model_Tucker Spec_Small.
Import ListNotations.
Open Scope R_scope.
Local Notation length := List.length.
Local Notation JZ := (besselZ besselJ).

(** ** The Bessel functions of orders 0, 1 and 2 *)
Lemma exp_quarter u : 0 <= u <= 1 / 4 -> exp u <= 4 / 3.
Proof.
  intros U. assert (L := exp_ineq1_le (- u)). rewrite exp_Ropp in L. pose proof (exp_pos u). assert (exp u * (1 + - u) <= 1). { replace 1 with (exp u * / exp u) at 2 by (field; lra). apply Rmult_le_compat_l; lra. } nra.
Qed.
Lemma P_small n u : 0 <= u <= 1 / 4 -> Rabs (P n u) <= 4 / 3 / INR (fact n).
Proof. intros U. eapply Rle_trans; [apply P_bound; lra|]. apply Rmult_le_compat_r; [left; apply Rinv_0_lt_compat, INR_fact_lt_0|now apply exp_quarter]. Qed.
Lemma mvt_P0 n u : 0 <= u -> exists c, 0 <= c <= u /\ P n u = P n 0 - P (S n) c * u.
Proof. intros [U|<-]; [now apply mvt_P|]. exists 0. split; [lra|ring]. Qed.
Lemma P2_near u : 0 <= u <= 1 / 4 -> Rabs (P 2 u) <= 2 / 3.
Proof. intros U. eapply Rle_trans; [now apply P_small|]. change (INR (fact 2)) with (1 + 1). lra. Qed.
Lemma P1_near u : 0 <= u <= 1 / 4 -> Rabs (P 1 u - 1) <= 2 / 3 * u.
Proof.
  intros U. destruct (mvt_P0 1 u ltac:(lra)) as [c [C E]]. rewrite E, P_0. change (INR (fact 1)) with 1. replace (/ 1 - P 2 c * u - 1) with (- (P 2 c * u)) by field. rewrite Rabs_Ropp, Rabs_mult, (Rabs_pos_eq u) by lra.
  apply Rmult_le_compat_r; [lra|]. apply P2_near. lra.
Qed.
Lemma P0_near u : 0 <= u <= 1 / 4 -> Rabs (P 0 u - (1 - u)) <= 2 / 3 * u ^ 2.
Proof.
  intros U. destruct (MVT_gen (fun u => P 0 u - (1 - u)) 0 u (fun c => 1 - P 1 c)) as [c [Hc E]].
  - intros x _. evar_last; [apply @is_derive_minus; [apply P_derive|auto_derive; [trivial|reflexivity]]|]. unfold minus, plus, opp; cbn -[P]. ring.
  - intros x _. apply continuity_pt_filterlim. apply (ex_derive_continuous (fun u => P 0 u - (1 - u)) x). eexists. apply @is_derive_minus; [apply P_derive|auto_derive; [trivial|reflexivity]].
  - rewrite Rmin_left, Rmax_right in Hc by lra. rewrite P_0 in E. change (INR (fact 0)) with 1 in E. replace (P 0 u - (1 - u)) with ((1 - P 1 c) * (u - 0)) by (rewrite <- E; field). rewrite Rabs_mult, (Rabs_pos_eq (u - 0)) by lra.
    rewrite Rabs_minus_sym. assert (B := P1_near c ltac:(lra)). apply Rle_trans with (2 / 3 * c * u); [rewrite Rminus_0_r; apply Rmult_le_compat_r; lra|nra].
Qed.
Section Level.
Variable a : R.
Hypothesis HA : Rabs a <= 1.
Let h := a / 2.
Let u := h ^ 2.
Lemma u_range : 0 <= u <= 1 / 4.
Proof. unfold u, h. apply Rabs_le_between in HA. split; [apply pow2_ge_0|nra]. Qed.
Lemma J0_sq : Rabs (besselJ 0 a ^ 2 - (1 - a ^ 2 / 2)) <= 5 / 2 * u ^ 2.
Proof.
  assert (U := u_range). assert (B := P0_near u U). rewrite J_P. fold h. fold u. change (h ^ 0) with 1. rewrite Rmult_1_l. set (p := P 0 u) in *. apply Rabs_le_between in B.
  assert (AU : a ^ 2 / 2 = 2 * u) by (unfold u, h; field). rewrite AU.
  set (d := p - (1 - u)) in *. replace (p ^ 2 - (1 - 2 * u)) with (d * (d + 2 * (1 - u)) + u ^ 2) by (unfold d; ring). assert (Q : 0 <= u ^ 2 <= u / 4) by (split; [apply pow2_ge_0|nra]). apply Rabs_le. split; nra.
Qed.
Lemma J1_sq : Rabs (besselJ 1 a ^ 2 - a ^ 2 / 4) <= 3 / 2 * u ^ 2.
Proof.
  assert (U := u_range). assert (B := P1_near u U). rewrite J_P. fold h. fold u. rewrite pow_1, Rpow_mult_distr. fold u. set (p := P 1 u) in *. apply Rabs_le_between in B.
  assert (AU : a ^ 2 / 4 = u) by (unfold u, h; field). rewrite AU. set (d := p - 1) in *. replace (u * p ^ 2 - u) with (u * (d * (d + 2))) by (unfold d; ring). rewrite Rabs_mult, (Rabs_pos_eq u) by lra.
  replace (3 / 2 * u ^ 2) with (u * (3 / 2 * u)) by ring. apply Rmult_le_compat_l; [lra|]. apply Rabs_le. split; nra.
Qed.
Lemma squares_1 : 1 - squares 1 a <= 11 / 2 * u ^ 2.
Proof. assert (A := J0_sq). assert (B := J1_sq). apply Rabs_le_between in A. apply Rabs_le_between in B. cbn [squares]. lra. Qed.
Lemma h_abs : Rabs h * u = Rabs a ^ 3 / 8.
Proof. unfold u. rewrite <- (pow2_abs h). unfold h. rewrite Rabs_div, (Rabs_pos_eq 2) by lra. field. Qed.
Lemma u_cube : u ^ 2 <= Rabs a ^ 3 / 16.
Proof. assert (E : u ^ 2 = Rabs a ^ 3 / 16 * Rabs a). { unfold u. rewrite <- (pow2_abs h). unfold h. rewrite Rabs_div, (Rabs_pos_eq 2) by lra. field. } rewrite E. rewrite <- (Rmult_1_r (Rabs a ^ 3 / 16)) at 2. apply Rmult_le_compat_l; [|assumption]. apply Rdiv_le_0_compat; [apply pow_le, Rabs_pos|lra]. Qed.
Lemma J12 : Rabs (besselJ 1 a * besselJ 2 a) <= 8 / 9 * (Rabs a ^ 3 / 8).
Proof.
  assert (U := u_range). rewrite !J_P. fold h. fold u. rewrite pow_1. change (h ^ 2) with u. rewrite <- h_abs. replace (h * P 1 u * (u * P 2 u)) with (h * u * (P 1 u * P 2 u)) by ring. rewrite !Rabs_mult, (Rabs_pos_eq u) by lra.
  assert (A := P_small 1 u U). change (INR (fact 1)) with 1 in A. assert (B := P2_near u U). assert (Q : Rabs (P 1 u) * Rabs (P 2 u) <= 4 / 3 * (2 / 3)) by (apply Rmult_le_compat; try apply Rabs_pos; lra).
  pose proof (Rabs_pos h). assert (0 <= Rabs h * u) by nra. nra.
Qed.
Lemma J01 : Rabs (besselJ 0 a * besselJ 1 a - h) <= 20 / 9 * (Rabs a ^ 3 / 8).
Proof.
  assert (U := u_range). rewrite !J_P. fold h. fold u. rewrite pow_1. change (h ^ 0) with 1. rewrite Rmult_1_l, <- h_abs. replace (P 0 u * (h * P 1 u) - h) with (h * (P 0 u * (P 1 u - 1) + (P 0 u - 1))) by ring. rewrite Rabs_mult.
  assert (A := P_small 0 u U). change (INR (fact 0)) with 1 in A. assert (B := P1_near u U). assert (C := P0_near u U).
  assert (D : Rabs (P 0 u - 1) <= 4 / 3 * u). { apply Rabs_le_between in C. assert (0 <= u ^ 2 <= u / 4) by (split; [apply pow2_ge_0|nra]). apply Rabs_le. lra. }
  replace (20 / 9 * (Rabs h * u)) with (Rabs h * (20 / 9 * u)) by ring. apply Rmult_le_compat_l; [apply Rabs_pos|]. eapply Rle_trans; [apply Rabs_triang|]. rewrite Rabs_mult.
  assert (Q : Rabs (P 0 u) * Rabs (P 1 u - 1) <= 4 / 3 * (2 / 3 * u)) by (apply Rmult_le_compat; try apply Rabs_pos; lra). lra.
Qed.

(** ** Sums over the photons *)
Lemma beyond (w : Z -> R) (I : Z -> R) (m : nat -> R) F : (forall n, Rabs (I n) <= F) ->
  (forall b, (1 <= b)%nat -> Rabs (w (Z.of_nat (S b))) + Rabs (w (- Z.of_nat (S b))%Z) <= m (S b) - m b) ->
  forall b, (1 <= b)%nat -> Rabs (rsum (sym b) (fun n => w n * I n) - (w 0%Z * I 0%Z + (w 1%Z * I 1%Z + w (-1)%Z * I (-1)%Z))) <= F * (m b - m 1%nat).
Proof.
  intros B W b Hb. induction Hb as [|b Hb IH].
  - rewrite rsum_sym_S, rsum_sym_0. change (Z.of_nat 1) with 1%Z. change (- (1))%Z with (-1)%Z. match goal with |- Rabs ?x <= _ => replace x with 0 by ring end. rewrite Rabs_R0. lra.
  - rewrite rsum_sym_S. set (s := rsum (sym b) (fun n => w n * I n)) in *. set (c := w 0%Z * I 0%Z + (w 1%Z * I 1%Z + w (-1)%Z * I (-1)%Z)) in *. specialize (W b Hb). set (k := Z.of_nat (S b)) in *.
    assert (F0 : 0 <= F) by (eapply Rle_trans; [apply Rabs_pos|apply (B 0%Z)]).
    assert (T : Rabs (w k * I k + w (- k)%Z * I (- k)%Z) <= F * (m (S b) - m b)).
    { eapply Rle_trans; [apply Rabs_triang|]. rewrite !Rabs_mult. assert (X := B k). assert (Y := B (- k)%Z). pose proof (Rabs_pos (w k)). pose proof (Rabs_pos (w (- k)%Z)).
      apply Rle_trans with (F * (Rabs (w k) + Rabs (w (- k)%Z))); [|apply Rmult_le_compat_l; assumption]. nra. }
    replace (s + (w k * I k + w (- k)%Z * I (- k)%Z) - c) with ((s - c) + (w k * I k + w (- k)%Z * I (- k)%Z)) by ring. eapply Rle_trans; [apply Rabs_triang|]. lra.
Qed.
Lemma JZ_neg_abs n : Rabs (JZ (- Z.of_nat n) a) = Rabs (besselJ n a).
Proof. unfold besselZ. destruct (Z.ltb_spec (- Z.of_nat n) 0). { rewrite Z.opp_involutive, Nat2Z.id, Rabs_mult, pow_1_abs. ring. } replace n with 0%nat by lia. reflexivity. Qed.
Lemma JZ_nat n : JZ (Z.of_nat n) a = besselJ n a.
Proof. unfold besselZ. destruct (Z.ltb_spec (Z.of_nat n) 0); [lia|]. now rewrite Nat2Z.id. Qed.
Lemma JZ_m1 : JZ (-1) a = - besselJ 1 a. Proof. unfold besselZ. cbn -[besselJ]. change (Pos.to_nat 1) with 1%nat. cbn [pow]. ring. Qed.
Lemma JZ_m2 : JZ (-2) a = besselJ 2 a. Proof. unfold besselZ. cbn -[besselJ]. change (Pos.to_nat 2) with 2%nat. cbn [pow]. ring. Qed.
Lemma JZ_0 : JZ 0 a = besselJ 0 a. Proof. reflexivity. Qed.
Lemma JZ_1 : JZ 1 a = besselJ 1 a. Proof. reflexivity. Qed.
Lemma JZ_2 : JZ 2 a = besselJ 2 a. Proof. reflexivity. Qed.
Variables (idc ikk : R -> R) (w V F : R).
Hypothesis BI : forall v, Rabs (idc v) <= F.
Hypothesis BK : forall v, Rabs (ikk v) <= F.
Lemma F_pos : 0 <= F. Proof. eapply Rle_trans; [apply Rabs_pos|apply (BI 0)]. Qed.

Theorem dc_small b : (1 <= b)%nat -> Rabs (pumped_iv besselJ idc w a b V - rectified idc w a V) <= F * a ^ 4.
Proof.
  intros Hb. rewrite pumped_sum. assert (T := beyond (fun n => JZ n a ^ 2) (fun n => idc (V + IZR n * w)) (fun b => squares b a) F (fun n => BI _)).
  cbv beta in T. assert (T' : Rabs (rsum (sym b) (fun n => JZ n a ^ 2 * idc (V + IZR n * w)) - (JZ 0 a ^ 2 * idc (V + 0 * w) + (JZ 1 a ^ 2 * idc (V + 1 * w) + JZ (-1) a ^ 2 * idc (V + -1 * w)))) <= F * (squares b a - squares 1 a)).
  { apply T; [|exact Hb]. intros k Hk. rewrite !besselZ_sq. replace (Z.abs_nat (Z.of_nat (S k))) with (S k) by lia. replace (Z.abs_nat (- Z.of_nat (S k))) with (S k) by lia. rewrite Rabs_pos_eq by apply pow2_ge_0. cbn [squares]. lra. }
  clear T. rewrite JZ_m1, JZ_0, JZ_1 in T'. replace (V + 0 * w) with V in T' by ring. replace (V + 1 * w) with (V + w) in T' by ring. replace (V + -1 * w) with (V - w) in T' by ring.
  set (s := rsum (sym b) (fun n => JZ n a ^ 2 * idc (V + IZR n * w))) in *. unfold rectified.
  assert (F0 := F_pos). assert (S1 := squares_1). assert (SB := squares_le_1 b a). assert (A0 := J0_sq). assert (A1 := J1_sq).
  assert (UA : u ^ 2 = a ^ 4 / 16) by (unfold u, h; field).
  set (e0 := besselJ 0 a ^ 2 - (1 - a ^ 2 / 2)) in *. set (e1 := besselJ 1 a ^ 2 - a ^ 2 / 4) in *.
  replace (s - (idc V + a ^ 2 / 4 * (idc (V + w) - 2 * idc V + idc (V - w)))) with ((s - (besselJ 0 a ^ 2 * idc V + (besselJ 1 a ^ 2 * idc (V + w) + (- besselJ 1 a) ^ 2 * idc (V - w)))) + (e0 * idc V + (e1 * idc (V + w) + e1 * idc (V - w)))) by (unfold e0, e1; field).
  eapply Rle_trans; [apply Rabs_triang|]. assert (M : forall e v c, Rabs e <= c -> Rabs (e * idc v) <= c * F) by (intros e v c E; rewrite Rabs_mult; apply Rmult_le_compat; try apply Rabs_pos; [assumption|apply BI]).
  assert (Q : Rabs (e0 * idc V + (e1 * idc (V + w) + e1 * idc (V - w))) <= 5 / 2 * u ^ 2 * F + (3 / 2 * u ^ 2 * F + 3 / 2 * u ^ 2 * F)).
  { eapply Rle_trans; [apply Rabs_triang|]. apply Rplus_le_compat; [now apply M|]. eapply Rle_trans; [apply Rabs_triang|]. apply Rplus_le_compat; now apply M. }
  assert (T2 : F * (squares b a - squares 1 a) <= F * (11 / 2 * u ^ 2)) by (apply Rmult_le_compat_l; lra). assert (0 <= F * u ^ 2) by (apply Rmult_le_pos; [assumption|apply pow2_ge_0]).
  replace (F * a ^ 4) with (16 * (F * u ^ 2)) by (rewrite UA; field). lra.
Qed.

(** ** The alternating current *)
Definition tails (b : nat) : R := 2 * (Rabs (besselJ 1 a * besselJ 2 a) + (squares b a - squares 1 a) / 2 + (squares (S b) a - squares 1 a) / 2).
Lemma tails_up b : (1 <= b)%nat -> tails b <= 2 * (8 / 9 * (Rabs a ^ 3 / 8) + 11 / 2 * u ^ 2).
Proof. intros Hb. unfold tails. assert (A := J12). assert (S1 := squares_1). assert (X := squares_le_1 b a). assert (Y := squares_le_1 (S b) a). lra. Qed.
Lemma amgm x y : 2 * Rabs (x * y) <= x ^ 2 + y ^ 2.
Proof. rewrite Rabs_mult. rewrite <- (pow2_abs x), <- (pow2_abs y). pose proof (pow2_ge_0 (Rabs x - Rabs y)). nra. Qed.
Lemma step b : 2 * Rabs (besselJ b a * besselJ (S b) a) + 4 * Rabs (besselJ (S b) a * besselJ (S (S b)) a) <= 2 * Rabs (besselJ b a * besselJ (S b) a) + (tails (S b) - tails b).
Proof. unfold tails. cbn [squares]. assert (Q := amgm (besselJ (S b) a) (besselJ (S (S b)) a)). lra. Qed.
Lemma im_weight b : Rabs (JZ (Z.of_nat (S b)) a * (JZ (Z.of_nat (S b) - 1) a - JZ (Z.of_nat (S b) + 1) a)) + Rabs (JZ (- Z.of_nat (S b)) a * (JZ (- Z.of_nat (S b) - 1) a - JZ (- Z.of_nat (S b) + 1) a)) <=
  2 * Rabs (besselJ b a * besselJ (S b) a) + 2 * Rabs (besselJ (S b) a * besselJ (S (S b)) a).
Proof.
  replace (Z.of_nat (S b) - 1)%Z with (Z.of_nat b) by lia. replace (Z.of_nat (S b) + 1)%Z with (Z.of_nat (S (S b))) by lia. replace (- Z.of_nat (S b) - 1)%Z with (- Z.of_nat (S (S b)))%Z by lia. replace (- Z.of_nat (S b) + 1)%Z with (- Z.of_nat b)%Z by lia.
  rewrite !JZ_nat. assert (T : forall p q r, Rabs (p * (q - r)) <= Rabs p * Rabs q + Rabs p * Rabs r).
  { intros p q r. rewrite Rabs_mult, <- Rmult_plus_distr_l. apply Rmult_le_compat_l; [apply Rabs_pos|]. unfold Rminus. eapply Rle_trans; [apply Rabs_triang|]. rewrite Rabs_Ropp. lra. }
  eapply Rle_trans; [apply Rplus_le_compat; apply T|]. rewrite !JZ_neg_abs, !Rabs_mult. right. ring.
Qed.
Lemma im_sum b : (1 <= b)%nat -> Rabs (rsum (sym b) (fun n => JZ n a * (JZ (n - 1) a - JZ (n + 1) a) * ikk (V + IZR n * w)) -
   (-2 * besselJ 0 a * besselJ 1 a * ikk V + besselJ 1 a * (besselJ 0 a - besselJ 2 a) * (ikk (V + w) + ikk (V - w)))) <= F * (tails b - 2 * Rabs (besselJ b a * besselJ (S b) a)).
Proof.
  intros Hb. set (m := fun b => tails b - 2 * Rabs (besselJ b a * besselJ (S b) a)).
  assert (T := beyond (fun n => JZ n a * (JZ (n - 1) a - JZ (n + 1) a)) (fun n => ikk (V + IZR n * w)) m F (fun n => BK _)). cbv beta in T.
  assert (T' := T ltac:(intros k Hk; eapply Rle_trans; [apply im_weight|]; unfold m; assert (Q := step k); lra) b Hb). clear T.
  change (0 - 1)%Z with (-1)%Z in T'. change (0 + 1)%Z with 1%Z in T'. change (1 - 1)%Z with 0%Z in T'. change (1 + 1)%Z with 2%Z in T'. change (-1 - 1)%Z with (-2)%Z in T'. change (-1 + 1)%Z with 0%Z in T'.
  rewrite JZ_m1, JZ_m2, JZ_0, JZ_1, JZ_2 in T'. replace (V + 0 * w) with V in T' by ring. replace (V + 1 * w) with (V + w) in T' by ring. replace (V + -1 * w) with (V - w) in T' by ring.
  eapply Rle_trans; [|eapply Rle_trans; [exact T'|]].
  - right. f_equal. ring.
  - apply Rmult_le_compat_l; [apply F_pos|]. fold (m b). assert (0 <= m 1%nat). { unfold m, tails. cbn [squares]. pose proof (pow2_ge_0 (besselJ 2 a)). lra. } lra.
Qed.
Lemma re_weight b : a <> 0 -> (1 <= b)%nat -> Rabs (JZ (Z.of_nat (S b)) a * (JZ (Z.of_nat (S b) - 1) a + JZ (Z.of_nat (S b) + 1) a)) + Rabs (JZ (- Z.of_nat (S b)) a * (JZ (- Z.of_nat (S b) - 1) a + JZ (- Z.of_nat (S b) + 1) a)) <=
  moments (S b) a / Rabs a - moments b a / Rabs a.
Proof.
  intros A0 Hb. assert (AP : 0 < Rabs a) by now apply Rabs_pos_lt.
  assert (T : forall n, Rabs (JZ n a * (JZ (n - 1) a + JZ (n + 1) a)) = 2 * Rabs (IZR n) * JZ n a ^ 2 / Rabs a).
  { intros n. assert (R := J_recZ n a). replace (JZ (n - 1) a + JZ (n + 1) a) with (2 * IZR n * JZ n a / a) by (rewrite <- R; field; assumption).
    replace (JZ n a * (2 * IZR n * JZ n a / a)) with (2 * IZR n * JZ n a ^ 2 / a) by (field; assumption). rewrite Rabs_div, !Rabs_mult, (Rabs_pos_eq 2), (Rabs_pos_eq (JZ n a ^ 2)) by (try lra; try apply pow2_ge_0; assumption). reflexivity. }
  rewrite !T, !besselZ_sq. replace (Z.abs_nat (Z.of_nat (S b))) with (S b) by lia. replace (Z.abs_nat (- Z.of_nat (S b))) with (S b) by lia. rewrite opp_IZR, Rabs_Ropp, <- INR_IZR_INZ, Rabs_pos_eq by apply pos_INR. cbn [moments].
  assert (N2 : 2 <= INR (S b)) by (replace 2 with (INR 2) by (cbn; lra); apply le_INR; lia). pose proof (pow2_ge_0 (besselJ (S b) a)).
  replace ((moments b a + 2 * INR (S b) ^ 2 * besselJ (S b) a ^ 2) / Rabs a - moments b a / Rabs a) with (2 * INR (S b) ^ 2 * besselJ (S b) a ^ 2 / Rabs a) by (field; lra).
  replace (2 * INR (S b) * besselJ (S b) a ^ 2 / Rabs a + 2 * INR (S b) * besselJ (S b) a ^ 2 / Rabs a) with (4 * INR (S b) * besselJ (S b) a ^ 2 / Rabs a) by (field; lra).
  apply Rmult_le_compat_r; [left; now apply Rinv_0_lt_compat|]. apply Rmult_le_compat_r; [assumption|]. nra.
Qed.
Lemma re_sum b : a <> 0 -> (1 <= b)%nat -> Rabs (rsum (sym b) (fun n => JZ n a * (JZ (n - 1) a + JZ (n + 1) a) * idc (V + IZR n * w)) -
   2 * besselJ 1 a ^ 2 / a * (idc (V + w) - idc (V - w))) <= F * (2 * (3 / 2 * u ^ 2) / Rabs a).
Proof.
  intros A0 Hb. assert (AP : 0 < Rabs a) by now apply Rabs_pos_lt.
  assert (T := beyond (fun n => JZ n a * (JZ (n - 1) a + JZ (n + 1) a)) (fun n => idc (V + IZR n * w)) (fun b => moments b a / Rabs a) F (fun n => BI _)). cbv beta in T.
  assert (T' := T ltac:(intros k Hk; now apply re_weight) b Hb). clear T.
  change (0 - 1)%Z with (-1)%Z in T'. change (0 + 1)%Z with 1%Z in T'. change (1 - 1)%Z with 0%Z in T'. change (1 + 1)%Z with 2%Z in T'. change (-1 - 1)%Z with (-2)%Z in T'. change (-1 + 1)%Z with 0%Z in T'.
  rewrite JZ_m1, JZ_m2, JZ_0, JZ_1, JZ_2 in T'. replace (V + 0 * w) with V in T' by ring. replace (V + 1 * w) with (V + w) in T' by ring. replace (V + -1 * w) with (V - w) in T' by ring.
  assert (R := J_rec 0 a). change (INR 1) with 1 in R. assert (R' : besselJ 0 a + besselJ 2 a = 2 * besselJ 1 a / a) by (apply (Rmult_eq_reg_l a); [rewrite R; field; assumption|assumption]).
  eapply Rle_trans; [|eapply Rle_trans; [exact T'|]].
  - right. f_equal. replace (2 * besselJ 1 a ^ 2 / a) with (besselJ 1 a * (besselJ 0 a + besselJ 2 a)) by (rewrite R'; field; assumption). ring.
  - apply Rmult_le_compat_l; [apply F_pos|]. assert (ML := moments_le b a). assert (A1 := J1_sq). apply Rabs_le_between in A1. cbn [moments]. change (INR 1) with 1. unfold Rdiv at 1 2 4. rewrite <- Rmult_minus_distr_r. apply Rmult_le_compat_r; [left; now apply Rinv_0_lt_compat|]. lra.
Qed.
Lemma edge_small b : (1 <= b)%nat -> Rabs (besselJ b a * besselJ (S b) a) <= tails b / 2.
Proof.
  intros Hb. unfold tails. destruct b as [|[|b]]; [lia| |].
  - cbn [squares]. pose proof (pow2_ge_0 (besselJ 2 a)). lra.
  - assert (Q := amgm (besselJ (S (S b)) a) (besselJ (S (S (S b))) a)). pose proof (Rabs_pos (besselJ 1 a * besselJ 2 a)). assert (I := squares_incr 1 (S b) a ltac:(lia)). assert (squares (S (S b)) a = squares (S b) a + 2 * besselJ (S (S b)) a ^ 2) by reflexivity. assert (squares (S (S (S b))) a = squares (S (S b)) a + 2 * besselJ (S (S (S b))) a ^ 2) by reflexivity. pose proof (pow2_ge_0 (besselJ (S (S b)) a)). pose proof (pow2_ge_0 (besselJ (S (S (S b))) a)). lra.
Qed.
End Level.

Lemma rsum_zero (l : list Z) g : (forall n, In n l -> g n = 0) -> rsum l g = 0.
Proof. induction l as [|a l IH]; cbn [rsum]; intros H; [reflexivity|]. rewrite IH by (intros; apply H; now right). rewrite H by now left. ring. Qed.

Lemma re_pair x y : Re (x, y) = x. Proof. reflexivity. Qed.
Lemma im_pair x y : Im (x, y) = y. Proof. reflexivity. Qed.

(** ** The alternating current of a bounded response *)
Section Core.
Variables (resp : R -> C) (alpha f : R).
Hypothesis Hf : / 10000 < f.
Hypothesis HA : Rabs alpha <= 1.
Variable F : R.
Hypothesis BR : forall v, Rabs (Re (resp v)) <= F.
Hypothesis BM : forall v, Rabs (Im (resp v)) <= F.
Lemma JZ_edge' b : JZ (- Z.of_nat b) alpha * JZ (- Z.of_nat b - 1) alpha = - (besselJ b alpha * besselJ (S b) alpha).
Proof.
  assert (N : forall m, JZ (- Z.of_nat m) alpha = (-1) ^ m * besselJ m alpha).
  { intros m. unfold besselZ. destruct (Z.ltb_spec (- Z.of_nat m) 0). { now rewrite Z.opp_involutive, Nat2Z.id. } replace m with 0%nat by lia. cbn -[besselJ]. ring. }
  replace (- Z.of_nat b - 1)%Z with (- Z.of_nat (S b))%Z by lia. rewrite !N. simpl pow. assert (Q : (-1) ^ b * (-1) ^ b = 1) by (rewrite <- Rpow_mult_distr; replace (-1 * -1) with 1 by ring; apply pow1).
  replace ((-1) ^ b * besselJ b alpha * (-1 * (-1) ^ b * besselJ (S b) alpha)) with (- ((-1) ^ b * (-1) ^ b) * (besselJ b alpha * besselJ (S b) alpha)) by ring. rewrite Q. ring.
Qed.
Theorem ac_core b V : (1 <= b)%nat ->
  let z := Cminus (ac_current besselJ (fun v => Im (resp v)) (fun v => Re (resp v)) f alpha b V) (edge besselJ resp f alpha b V) in
  Rabs (Re z - conductance (fun v => Im (resp v)) f V * (alpha * f)) <= 4 * F * Rabs alpha ^ 3 /\
  Rabs (Im z - susceptance (fun v => Re (resp v)) f V * (alpha * f)) <= 4 * F * Rabs alpha ^ 3.
Proof.
  intros Hb z. subst z. rewrite ac_current_sums. unfold edge. rewrite JZ_edge'. replace (Z.of_nat b + 1)%Z with (Z.of_nat (S b)) by lia. rewrite !JZ_nat, <- INR_IZR_INZ.
  set (q := besselJ b alpha * besselJ (S b) alpha). unfold Cminus, Cplus, Copp. cbn [fst snd]. rewrite re_pair, im_pair.
  assert (F0 : 0 <= F) by (eapply Rle_trans; [apply Rabs_pos|apply (BR 0)]). assert (A3 : 0 <= F * Rabs alpha ^ 3) by (apply Rmult_le_pos; [assumption|apply pow_le, Rabs_pos]).
  assert (U3 := u_cube alpha HA). assert (TL := tails_up alpha HA b Hb). assert (ED := edge_small alpha b Hb). fold q in ED.
  assert (TL2 : tails alpha b <= Rabs alpha ^ 3) by (pose proof (pow_le (Rabs alpha) 3 (Rabs_pos alpha)); lra).
  assert (M : forall e x c, Rabs e <= c -> Rabs x <= F -> Rabs (e * x) <= c * F) by (intros e x c X Y; rewrite Rabs_mult; apply Rmult_le_compat; try apply Rabs_pos; assumption).
  assert (QF : forall x, Rabs x <= F -> Rabs (q * x) <= / 2 * (F * Rabs alpha ^ 3)).
  { intros x X. eapply Rle_trans; [apply (M q x (Rabs alpha ^ 3 / 2)); [lra|exact X]|]. lra. }
  split.
  - set (s := rsum _ _). set (p1 := Im (resp (V + INR b * f))). set (p2 := Im (resp (V - INR b * f))).
    assert (E1 := QF p1 (BM _)). assert (E2 := QF p2 (BM _)).
    assert (MAIN : Rabs (s - conductance (fun v => Im (resp v)) f V * (alpha * f)) <= 3 * (F * Rabs alpha ^ 3)).
    { unfold conductance. set (i1 := Im (resp (V + f))). set (i2 := Im (resp (V - f))). replace ((i1 - i2) / (2 * f) * (alpha * f)) with (alpha / 2 * (i1 - i2)) by (field; lra).
      destruct (Req_dec alpha 0) as [A0|A0].
      - assert (S0 : s = 0). { unfold s. apply rsum_zero. intros n _. assert (JS : forall m, besselJ (S m) alpha = 0) by (intros m; rewrite A0; apply besselJ_S_0). destruct (Z.eq_dec n 0) as [->|N0].
          - change (0 - 1)%Z with (-1)%Z. change (0 + 1)%Z with 1%Z. rewrite JZ_m1, JZ_1. ring.
          - assert (J0 : JZ n alpha = 0). { unfold besselZ. destruct (Z.ltb_spec n 0). { replace (Z.to_nat (- n)) with (S (Z.to_nat (- n - 1))) by lia. rewrite JS. ring. } replace (Z.to_nat n) with (S (Z.to_nat (n - 1))) by lia. apply JS. } rewrite J0. ring. }
        rewrite S0, A0. replace (0 - 0 / 2 * (i1 - i2)) with 0 by field. rewrite Rabs_R0. rewrite A0 in A3. lra.
      - assert (RS := re_sum alpha HA (fun v => Im (resp v)) f V F BM b A0 Hb). cbv beta in RS. fold s i1 i2 in RS. assert (AP : 0 < Rabs alpha) by now apply Rabs_pos_lt.
        assert (UA : ((alpha / 2) ^ 2) ^ 2 / Rabs alpha = Rabs alpha ^ 3 / 16).
        { replace (((alpha / 2) ^ 2) ^ 2) with ((Rabs alpha ^ 2) ^ 2 / 16) by (rewrite pow2_abs; field). field. lra. }
        assert (RS2 : F * (2 * (3 / 2 * ((alpha / 2) ^ 2) ^ 2) / Rabs alpha) = 3 * (F * (Rabs alpha ^ 3 / 16))). { rewrite <- UA. field. lra. } rewrite RS2 in RS.
        assert (A1 := J1_sq alpha HA). set (e := besselJ 1 alpha ^ 2 - alpha ^ 2 / 4) in *.
        assert (EE : Rabs (2 * e / alpha) <= 3 * (Rabs alpha ^ 3 / 16)). { rewrite Rabs_div, Rabs_mult, (Rabs_pos_eq 2) by (try lra; assumption). rewrite <- UA. apply Rle_trans with (2 * (3 / 2 * ((alpha / 2) ^ 2) ^ 2) / Rabs alpha); [|right; field; lra]. apply Rmult_le_compat_r; [left; now apply Rinv_0_lt_compat|]. lra. }
        replace (s - alpha / 2 * (i1 - i2)) with ((s - 2 * besselJ 1 alpha ^ 2 / alpha * (i1 - i2)) + (2 * e / alpha * i1 - 2 * e / alpha * i2)) by (unfold e; field; assumption).
        assert (M1 := M _ i1 _ EE (BM _)). assert (M2 := M _ i2 _ EE (BM _)). eapply Rle_trans; [apply Rabs_triang|]. assert (X : Rabs (2 * e / alpha * i1 - 2 * e / alpha * i2) <= 3 * (Rabs alpha ^ 3 / 16) * F + 3 * (Rabs alpha ^ 3 / 16) * F) by (unfold Rminus; eapply Rle_trans; [apply Rabs_triang|rewrite Rabs_Ropp; lra]). lra. }
    match goal with |- Rabs ?x <= _ => replace x with ((s - conductance (fun v => Im (resp v)) f V * (alpha * f)) + (- (q * p1) + q * p2)) by ring end.
    eapply Rle_trans; [apply Rabs_triang|]. assert (X : Rabs (- (q * p1) + q * p2) <= F * Rabs alpha ^ 3) by (eapply Rle_trans; [apply Rabs_triang|rewrite Rabs_Ropp; lra]). lra.
  - set (s := rsum _ _). set (p1 := Re (resp (V + INR b * f))). set (p2 := Re (resp (V - INR b * f))).
    assert (E1 := QF p1 (BR _)). assert (E2 := QF p2 (BR _)).
    assert (IS := im_sum alpha (fun v => Im (resp v)) (fun v => Re (resp v)) f V F BM BR b Hb).
    cbv beta in IS. fold s q in IS.
    assert (MAIN : Rabs (s - susceptance (fun v => Re (resp v)) f V * (alpha * f)) <= 3 * (F * Rabs alpha ^ 3)).
    { unfold susceptance. set (k1 := Re (resp (V + f))) in *. set (k2 := Re (resp (V - f))) in *. set (k0 := Re (resp V)) in *. replace ((k1 - 2 * k0 + k2) / (2 * f) * (alpha * f)) with (alpha / 2 * (k1 - 2 * k0 + k2)) by (field; lra).
      assert (A01 := J01 alpha HA). assert (A12 := J12 alpha HA). set (e := besselJ 0 alpha * besselJ 1 alpha - alpha / 2) in *. set (g := besselJ 1 alpha * besselJ 2 alpha) in *.
      assert (P0 := M e k0 _ A01 (BR _)). assert (P1 := M e k1 _ A01 (BR _)). assert (P2 := M e k2 _ A01 (BR _)). assert (G1 := M g k1 _ A12 (BR _)). assert (G2 := M g k2 _ A12 (BR _)).
      assert (FT : F * (tails alpha b - 2 * Rabs q) <= F * Rabs alpha ^ 3) by (apply Rmult_le_compat_l; [assumption|]; pose proof (Rabs_pos q); lra).
      match type of IS with Rabs ?x <= _ => set (z := x) in IS end. replace (s - alpha / 2 * (k1 - 2 * k0 + k2)) with (z + (- (2 * (e * k0)) + e * k1 + e * k2 - g * k1 - g * k2)) by (unfold z, e, g; ring).
      apply Rabs_le_between in P0, P1, P2, G1, G2, IS. apply Rabs_le_between. lra. }
    match goal with |- Rabs ?x <= _ => replace x with ((s - susceptance (fun v => Re (resp v)) f V * (alpha * f)) + (q * p1 + q * p2)) by ring end.
    apply Rabs_le_between in MAIN, E1, E2. apply Rabs_le_between. lra.
Qed.
End Core.

(** ** qtcurrent *)
Section Local.
Variables (resp : R -> C) (V B F : R).
(** The response within B of V, zero elsewhere. *)
Definition near (v : R) : C := if Rle_dec (Rabs (v - V)) B then resp v else RtoC 0.
Lemma near_in v : Rabs (v - V) <= B -> near v = resp v. Proof. intros H. unfold near. destruct (Rle_dec _ _); [reflexivity|contradiction]. Qed.
Hypothesis B0 : 0 <= B.
Hypothesis H : forall v, Rabs (v - V) <= B -> Rabs (Re (resp v)) <= F /\ Rabs (Im (resp v)) <= F.
Lemma near_bound v : Rabs (Re (near v)) <= F /\ Rabs (Im (near v)) <= F.
Proof.
  unfold near. destruct (Rle_dec _ _) as [L|]; [now apply H|]. assert (X : Rabs (V - V) <= B) by (replace (V - V) with 0 by ring; now rewrite Rabs_R0). destruct (H V X) as [Y _]. assert (0 <= F) by (eapply Rle_trans; [apply Rabs_pos|exact Y]). cbn [Re Im RtoC fst snd]. now rewrite Rabs_R0.
Qed.
End Local.

Section OneTone.
Variables (vj : nat -> nat -> vec) (cct : qcct) (resp : R -> C) (alpha : R).
Hypothesis HF : q_num_f cct = 1%nat.
Hypothesis HP : q_num_p cct = 1%nat.
Hypothesis Hf : / 10000 < q_freq cct 1.
Hypothesis Hv : forall i, (i < q_npts cct)%nat -> vj 1%nat 1%nat i = RtoC (alpha * q_freq cct 1).
Hypothesis HA : Rabs alpha <= 1.
Notation f := (q_freq cct 1).
Variables (b i : nat) (F : R).
Hypothesis Hb : (1 <= b)%nat.
Hypothesis Hi : (i < q_npts cct)%nat.
Let V := q_vb cct i.
Hypothesis HB : forall v, Rabs (v - V) <= INR b * f -> Rabs (Re (resp v)) <= F /\ Rabs (Im (resp v)) <= F.
Let r := near resp V (INR b * f).
Let f0 : 0 < f. Proof. lra. Qed.
Let reach : 0 <= INR b * f. Proof. apply Rmult_le_pos; [apply pos_INR|lra]. Qed.
Lemma near_step n : (- Z.of_nat b <= n <= Z.of_nat b)%Z -> r (V + IZR n * f) = resp (V + IZR n * f).
Proof.
  intros Hn. apply near_in. replace (V + IZR n * f - V) with (IZR n * f) by ring. rewrite Rabs_mult, (Rabs_pos_eq f) by lra. apply Rmult_le_compat_r; [lra|]. rewrite <- abs_IZR, INR_IZR_INZ. apply IZR_le. lia.
Qed.
Lemma near_0 : r V = resp V. Proof. apply near_in. replace (V - V) with 0 by ring. now rewrite Rabs_R0. Qed.
Lemma near_p : r (V + f) = resp (V + f). Proof. assert (E := near_step 1%Z ltac:(lia)). now rewrite Rmult_1_l in E. Qed.
Lemma near_m : r (V - f) = resp (V - f). Proof. assert (E := near_step (-1)%Z ltac:(lia)). now replace (V + -1 * f) with (V - f) in E by ring. Qed.
Lemma near_R v : Rabs (Re (r v)) <= F. Proof. now apply near_bound. Qed.
Lemma near_I v : Rabs (Im (r v)) <= F. Proof. now apply near_bound. Qed.
Theorem small_dc row : qtcurrent besselJ vj cct resp (FScalar 0) (NbInt b) None = Ok (QReal row) ->
  Rabs (nth i row 0 - rectified (fun v => Im (resp v)) f alpha V) <= F * alpha ^ 4.
Proof.
  intros E. rewrite (one_dc vj cct resp alpha HF HP Hf Hv b row i E Hi). fold V.
  assert (D := dc_small alpha HA (fun v => Im (r v)) f V F near_I b Hb). unfold rectified in *. rewrite near_0, near_p, near_m in D.
  rewrite pumped_sum in *. rewrite (rsum_ext _ _ (fun n => JZ n alpha ^ 2 * Im (r (V + IZR n * f)))); [exact D|]. intros n Hn. apply in_sym in Hn. now rewrite near_step.
Qed.
Theorem small_ac row : qtcurrent besselJ vj cct resp (FList [f]) (NbInt b) None = Ok (QRows [row]) ->
  Rabs (Re (nth i row (RtoC 0)) - conductance (fun v => Im (resp v)) f V * (alpha * f)) <= 4 * F * Rabs alpha ^ 3 /\
  Rabs (Im (nth i row (RtoC 0)) - susceptance (fun v => Re (resp v)) f V * (alpha * f)) <= 4 * F * Rabs alpha ^ 3.
Proof.
  intros E. rewrite (one_ac vj cct resp alpha HF HP Hf Hv b row i E Hi). fold V.
  assert (D := ac_core r alpha f Hf HA F near_R near_I b V Hb). cbv zeta in D. unfold conductance, susceptance in *. rewrite near_0, near_p, near_m in D.
  replace (ac_current besselJ (fun v => Im (resp v)) (fun v => Re (resp v)) f alpha b V) with (ac_current besselJ (fun v => Im (r v)) (fun v => Re (r v)) f alpha b V).
  2:{ rewrite !ac_current_sums. f_equal; apply rsum_ext; intros n Hn; apply in_sym in Hn; now rewrite near_step. }
  replace (edge besselJ resp f alpha b V) with (edge besselJ r f alpha b V); [exact D|].
  unfold edge. assert (P := near_step (Z.of_nat b) ltac:(lia)). assert (M := near_step (- Z.of_nat b) ltac:(lia)). rewrite opp_IZR in M. replace (V + - IZR (Z.of_nat b) * f) with (V - IZR (Z.of_nat b) * f) in M by ring. now rewrite P, M.
Qed.
End OneTone.
