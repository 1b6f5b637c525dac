(** Power balance, Ohm's law and convergence for one tone. *)
From Coq Require Import List ZArith Lia Bool Arith Reals Lra.
From Coquelicot Require Import Complex.
From Verif Require Import Base Sums Round Bessel Model_QtCurrent Spec_QtCurrent Spec_QtApi Spec_Power Proof_QtCurrent
  Proof_QtCurrent2 Proof_QtSym Proof_QtApi Proof_QtApi2 Proof_QtWit Proof_Bessel Proof_Bessel2 Proof_Weights Proof_Power Proof_Power2 Model_Tucker.
Import ListNotations.
Open Scope R_scope.
Local Notation length := List.length.
Local Notation JZ := (besselZ besselJ).

(** ** The Tucker helpers *)
Lemma pumped_sum idc vph alpha b V : pumped_iv besselJ idc vph alpha b V = rsum (sym b) (fun n => JZ n alpha ^ 2 * idc (V + IZR n * vph)).
Proof. unfold pumped_iv. change (zrange (- Z.of_nat b) (Z.of_nat b + 1)) with (sym b). rewrite fold_left_rsum. ring. Qed.
Theorem power_balance idc ikk vph alpha b V :
  V * pumped_iv besselJ idc vph alpha b V + / 2 * (alpha * vph) * Re (ac_current besselJ idc ikk vph alpha b V) =
  zsum b (fun n => JZ n alpha ^ 2 * ((V + IZR n * vph) * idc (V + IZR n * vph))).
Proof.
  rewrite pumped_sum, ac_current_sums, zsum_rsum. cbn [Re fst]. rewrite <- !rsum_scal, <- rsum_plus. apply rsum_ext. intros n _.
  assert (R := J_recZ n alpha). replace (/ 2 * (alpha * vph) * (JZ n alpha * (JZ (n - 1) alpha + JZ (n + 1) alpha) * idc (V + IZR n * vph))) with (/ 2 * vph * JZ n alpha * idc (V + IZR n * vph) * (alpha * (JZ (n - 1) alpha + JZ (n + 1) alpha))) by ring. rewrite R. field.
Qed.
Theorem passive idc ikk vph alpha b V : (forall v, 0 <= v * idc v) -> 0 <= V * pumped_iv besselJ idc vph alpha b V + / 2 * (alpha * vph) * Re (ac_current besselJ idc ikk vph alpha b V).
Proof. intros H. rewrite power_balance, zsum_rsum. apply rsum_nonneg. intros n _. apply Rmult_le_pos; [apply pow2_ge_0|apply H]. Qed.

(** ** qtcurrent with one tone *)
Section OneTone.
Variables (vj : nat -> nat -> vec) (cct : qcct) (resp : R -> C) (alpha : R).
Hypothesis HF : q_num_f cct = 1%nat.
Hypothesis HP : q_num_p cct = 1%nat.
Hypothesis Hf : / 10000 < q_freq cct 1.
Hypothesis Hv : forall i, (i < q_npts cct)%nat -> vj 1%nat 1%nat i = RtoC (alpha * q_freq cct 1).
Notation f := (q_freq cct 1).
Lemma one_args b : args_ok cct (NbInt b).
Proof. unfold args_ok. rewrite HF, HP. split; [lia|]. split; [lia|]. split; [|exact I]. intros k Hk. replace k with 1%nat by lia. lra. Qed.
Lemma one_dc b row i : qtcurrent besselJ vj cct resp (FScalar 0) (NbInt b) None = Ok (QReal row) -> (i < q_npts cct)%nat ->
  nth i row 0 = pumped_iv besselJ (fun v => Im (resp v)) f alpha b (q_vb cct i).
Proof.
  intros E Hi. rewrite (tucker_dc vj cct resp b alpha row (one_args b) HF HP Hf Hv E). unfold find_pumped_iv_curve. rewrite tab_map. now rewrite nth_tab.
Qed.
Lemma JZ_edge b : JZ (- Z.of_nat b) alpha * JZ (- Z.of_nat b - 1) alpha = - (besselJ b alpha * besselJ (S b) alpha).
Proof.
  assert (N : forall m, JZ (- Z.of_nat m) alpha = (-1) ^ m * besselJ m alpha).
  { intros m. unfold besselZ. destruct (Z.ltb_spec (- Z.of_nat m) 0). { now rewrite Z.opp_involutive, Nat2Z.id. } replace m with 0%nat by lia. cbn -[besselJ]. ring. }
  replace (- Z.of_nat b - 1)%Z with (- Z.of_nat (S b))%Z by lia. rewrite !N. simpl pow. assert (Q : (-1) ^ b * (-1) ^ b = 1) by (rewrite <- Rpow_mult_distr; replace (-1 * -1) with 1 by ring; apply pow1).
  replace ((-1) ^ b * besselJ b alpha * (-1 * (-1) ^ b * besselJ (S b) alpha)) with (- ((-1) ^ b * (-1) ^ b) * (besselJ b alpha * besselJ (S b) alpha)) by ring. rewrite Q. ring.
Qed.
Lemma JZ_pos b : JZ (Z.of_nat b) alpha = besselJ b alpha.
Proof. unfold besselZ. destruct (Z.ltb_spec (Z.of_nat b) 0); [lia|]. now rewrite Nat2Z.id. Qed.
Lemma one_ac b row i : qtcurrent besselJ vj cct resp (FList [f]) (NbInt b) None = Ok (QRows [row]) -> (i < q_npts cct)%nat ->
  nth i row (RtoC 0) = Cminus (ac_current besselJ (fun v => Im (resp v)) (fun v => Re (resp v)) f alpha b (q_vb cct i)) (edge besselJ resp f alpha b (q_vb cct i)).
Proof.
  intros E Hi. rewrite (tucker_ac vj cct resp b alpha row (one_args b) HF HP Hf Hv E). unfold find_ac_current. rewrite map2_map, tab_map. now rewrite nth_tab.
Qed.
Theorem one_power b dc ac i : qtcurrent besselJ vj cct resp (FScalar 0) (NbInt b) None = Ok (QReal dc) -> qtcurrent besselJ vj cct resp (FList [f]) (NbInt b) None = Ok (QRows [ac]) -> (i < q_npts cct)%nat ->
  let V := q_vb cct i in
  V * nth i dc 0 + / 2 * (alpha * f) * Re (nth i ac (RtoC 0)) =
  zsum b (fun n => JZ n alpha ^ 2 * ((V + IZR n * f) * Im (resp (V + IZR n * f)))) -
  / 2 * (alpha * f) * (besselJ b alpha * besselJ (S b) alpha) * (Im (resp (V + INR b * f)) - Im (resp (V - INR b * f))).
Proof.
  intros E1 E2 Hi V. rewrite (one_dc b dc i E1 Hi), (one_ac b ac i E2 Hi). fold V. rewrite <- (power_balance (fun v => Im (resp v)) (fun v => Re (resp v))).
  unfold edge. rewrite JZ_edge. replace (Z.of_nat b + 1)%Z with (Z.of_nat (S b)) by lia. rewrite !JZ_pos, <- INR_IZR_INZ. unfold Cminus, Cplus, Copp, Re, Im. cbn [fst snd]. ring.
Qed.

(** ** Ohm's law *)
Lemma rsum_odd b (g : Z -> R) : (forall n, g (- n)%Z = - g n) -> rsum (sym b) g = 0.
Proof.
  intros O. induction b as [|b IH]. { rewrite rsum_sym_0. assert (H := O 0%Z). cbn in H. lra. } rewrite rsum_sym_S, IH, O. ring.
Qed.
Lemma momentsZ b x : rsum (sym b) (fun n => IZR n ^ 2 * JZ n x ^ 2) = moments b x.
Proof.
  induction b as [|b IH]. { rewrite rsum_sym_0. cbn [moments]. ring. }
  rewrite rsum_sym_S, IH, !besselZ_sq. cbn [moments]. replace (Z.abs_nat (Z.of_nat (S b))) with (S b) by lia. replace (Z.abs_nat (- Z.of_nat (S b))) with (S b) by lia. rewrite opp_IZR, <- INR_IZR_INZ. ring.
Qed.
Lemma approaches_ext u v x : (forall b, u b = v b) -> approaches u x -> approaches v x.
Proof. intros E H eps He. destruct (H eps He) as [N HN]. exists N. intros b Hb. rewrite <- E. now apply HN. Qed.
Lemma approaches_scal u x c : approaches u x -> approaches (fun b => c * u b) (c * x).
Proof.
  intros H eps He. destruct (H (eps / (Rabs c + 1))) as [N HN]. { apply Rdiv_lt_0_compat; [assumption|]. pose proof (Rabs_pos c). lra. }
  exists N. intros b Hb. specialize (HN b Hb). rewrite <- Rmult_minus_distr_l, Rabs_mult. pose proof (Rabs_pos c). pose proof (Rabs_pos (u b - x)).
  assert (Q : Rabs (u b - x) * (Rabs c + 1) < eps). { apply Rmult_lt_reg_r with (/ (Rabs c + 1)); [apply Rinv_0_lt_compat; lra|]. replace (Rabs (u b - x) * (Rabs c + 1) * / (Rabs c + 1)) with (Rabs (u b - x)) by (field; lra). exact HN. } nra.
Qed.
Lemma approaches_minus u v x y : approaches u x -> approaches v y -> approaches (fun b => u b - v b) (x - y).
Proof.
  intros H1 H2 eps He. destruct (H1 (eps / 2)) as [N1 HN1]; [lra|]. destruct (H2 (eps / 2)) as [N2 HN2]; [lra|]. exists (Nat.max N1 N2). intros b Hb. specialize (HN1 b ltac:(lia)). specialize (HN2 b ltac:(lia)).
  replace (u b - v b - (x - y)) with ((u b - x) + - (v b - y)) by ring. eapply Rle_lt_trans; [apply Rabs_triang|]. rewrite Rabs_Ropp. lra.
Qed.
Lemma squares_approach x : approaches (fun b => squares b x) 1. Proof. intros eps He. apply squares_limit. assumption. Qed.
Lemma moments_approach x : approaches (fun b => moments b x) (x ^ 2 / 2). Proof. intros eps He. apply moments_limit. assumption. Qed.
Lemma J_small n x : besselJ (S n) x ^ 2 <= 1.
Proof. assert (H := squares_le_1 (S n) x). cbn [squares] in H. assert (0 <= squares n x). { rewrite <- squaresZ. apply rsum_nonneg. intros; apply pow2_ge_0. } pose proof (pow2_ge_0 (besselJ (S n) x)). lra. Qed.
Lemma J_vanish x : approaches (fun b => besselJ b x) 0.
Proof.
  intros eps He. set (e := Rmin 1 (eps ^ 2)). assert (0 < e) by (apply Rmin_pos; [lra|now apply pow_lt]). destruct (squares_limit x (e / 2)) as [N HN]; [lra|]. exists (S N). intros [|b] Hb; [lia|].
  assert (H1 := HN (S b) ltac:(lia)). assert (H2 := HN b ltac:(lia)). cbn [squares] in H1. apply Rabs_def2 in H1. apply Rabs_def2 in H2. rewrite Rminus_0_r.
  assert (besselJ (S b) x ^ 2 < eps ^ 2). { assert (e <= eps ^ 2) by apply Rmin_r. lra. }
  apply Rsqr_lt_abs_0 in H0 || idtac. rewrite <- (Rabs_pos_eq eps) by lra. apply Rsqr_lt_abs_0. rewrite !Rsqr_pow2. assumption.
Qed.
Lemma edge_vanish x : approaches (fun b => INR b * (besselJ b x * besselJ (S b) x)) 0.
Proof.
  intros eps He. destruct (J_vanish x (eps / (Rabs x + 1))) as [N HN]. { apply Rdiv_lt_0_compat; [assumption|]. pose proof (Rabs_pos x). lra. }
  exists (S (S N)). intros b Hb. destruct b as [|[|b]]; [lia|lia|]. specialize (HN (S (S (S b))) ltac:(lia)). rewrite Rminus_0_r in *.
  assert (R := J_rec (S b) x). replace (INR (S (S b)) * (besselJ (S (S b)) x * besselJ (S (S (S b))) x)) with (x * (besselJ (S b) x + besselJ (S (S (S b))) x) / 2 * besselJ (S (S (S b))) x) by (rewrite R; field).
  assert (A : forall n, Rabs (besselJ (S n) x) <= 1). { intros n. apply Rsqr_incr_0_var; [|lra]. rewrite <- Rsqr_abs, Rsqr_1, Rsqr_pow2. apply J_small. }
  unfold Rdiv. rewrite !Rabs_mult, (Rabs_pos_eq (/ 2)) by lra. pose proof (Rabs_triang (besselJ (S b) x) (besselJ (S (S (S b))) x)). assert (A1 := A b). assert (A2 := A (S (S b))).
  set (r := Rabs (besselJ (S (S (S b))) x)) in *. assert (0 <= r) by apply Rabs_pos. pose proof (Rabs_pos x).
  assert (Q : r * (Rabs x + 1) < eps). { apply Rmult_lt_reg_r with (/ (Rabs x + 1)); [apply Rinv_0_lt_compat; lra|]. replace (r * (Rabs x + 1) * / (Rabs x + 1)) with r by (field; lra). exact HN. }
  apply Rle_lt_trans with (Rabs x * r); [|nra]. assert (S2 : Rabs (besselJ (S b) x + besselJ (S (S (S b))) x) <= 2) by lra. 
  replace (Rabs x * Rabs (besselJ (S b) x + besselJ (S (S (S b))) x) * / 2 * r) with ((Rabs x * r) * (Rabs (besselJ (S b) x + besselJ (S (S (S b))) x) / 2)) by field. rewrite <- (Rmult_1_r (Rabs x * r)) at 2. apply Rmult_le_compat_l; [apply Rmult_le_pos; assumption|lra].
Qed.
Theorem ohm g (dc : nat -> list R) (ac : nat -> list C) i : (forall v, resp v = (0, g * v)) ->
  (forall b, qtcurrent besselJ vj cct resp (FScalar 0) (NbInt b) None = Ok (QReal (dc b))) -> (forall b, qtcurrent besselJ vj cct resp (FList [f]) (NbInt b) None = Ok (QRows [ac b])) -> (i < q_npts cct)%nat ->
  approaches (fun b => nth i (dc b) 0) (g * q_vb cct i) /\ approaches (fun b => Re (nth i (ac b) (RtoC 0))) (g * (alpha * f)) /\ (forall b, Im (nth i (ac b) (RtoC 0)) = 0).
Proof.
  intros HR E1 E2 Hi. set (V := q_vb cct i). split; [|split].
  - apply approaches_ext with (fun b => g * V * squares b alpha). 2:{ assert (X := approaches_scal _ _ (g * V) (squares_approach alpha)). now rewrite Rmult_1_r in X. }
    intros b. rewrite (one_dc b (dc b) i (E1 b) Hi), pumped_sum. fold V. rewrite <- squaresZ, <- rsum_scal.
    rewrite (rsum_ext (sym b) (fun n => JZ n alpha ^ 2 * Im (resp (V + IZR n * f))) (fun n => g * V * JZ n alpha ^ 2 + g * f * (IZR n * JZ n alpha ^ 2))) by (intros n _; rewrite HR; unfold Im; cbn [snd]; ring).
    rewrite rsum_plus, (rsum_scal _ (g * f)), (rsum_odd b (fun n => IZR n * JZ n alpha ^ 2)); [ring|]. intros n. rewrite opp_IZR, !besselZ_sq. replace (Z.abs_nat (- n)) with (Z.abs_nat n) by lia. ring.
  - destruct (Req_dec alpha 0) as [A0|A0].
    + apply approaches_ext with (fun _ => 0). 2:{ intros eps He. exists O. intros b _. rewrite A0. replace (0 - g * (0 * f)) with 0 by ring. now rewrite Rabs_R0. }
      intros b. rewrite (one_ac b (ac b) i (E2 b) Hi). fold V. rewrite ac_current_sums. unfold edge. rewrite JZ_edge. replace (Z.of_nat b + 1)%Z with (Z.of_nat (S b)) by lia. rewrite !JZ_pos. unfold Cminus, Cplus, Copp, Re. cbn [fst].
      assert (JS : forall m, besselJ (S m) alpha = 0) by (intros m; rewrite A0; apply besselJ_S_0). rewrite JS.
      rewrite (rsum_ext _ _ (fun _ => 0)). { assert (Z0 : forall l : list Z, rsum l (fun _ => 0) = 0) by (induction l as [|a l IH]; cbn [rsum]; [reflexivity|rewrite IH; ring]). rewrite Z0. ring. }
      intros n _. destruct (Z.eq_dec n 0) as [->|N0]. { unfold besselZ. cbn -[besselJ pow]. change (Pos.to_nat 1) with 1%nat. rewrite JS. ring. }
      assert (J0 : JZ n alpha = 0). { unfold besselZ. destruct (Z.ltb_spec n 0). { replace (Z.to_nat (- n)) with (S (Z.to_nat (- n - 1))) by lia. rewrite JS. ring. } replace (Z.to_nat n) with (S (Z.to_nat (n - 1))) by lia. apply JS. } rewrite J0. ring.
    + apply approaches_ext with (fun b => 2 * g * f / alpha * moments b alpha - 2 * g * f * (INR b * (besselJ b alpha * besselJ (S b) alpha))).
      2:{ replace (g * (alpha * f)) with (2 * g * f / alpha * (alpha ^ 2 / 2) - 2 * g * f * 0) by (field; assumption). apply approaches_minus; apply approaches_scal; [apply moments_approach|apply edge_vanish]. }
      intros b. rewrite (one_ac b (ac b) i (E2 b) Hi). fold V. rewrite ac_current_sums. unfold edge. rewrite JZ_edge. replace (Z.of_nat b + 1)%Z with (Z.of_nat (S b)) by lia. rewrite !JZ_pos, <- INR_IZR_INZ. rewrite !HR. unfold Cminus, Cplus, Copp, Re, Im. cbn [fst snd].
      rewrite (rsum_ext (sym b) _ (fun n => 2 * g * f / alpha * (IZR n ^ 2 * JZ n alpha ^ 2) + 2 * g * V / alpha * (IZR n * JZ n alpha ^ 2))).
      * rewrite rsum_plus, !rsum_scal, momentsZ, (rsum_odd b (fun n => IZR n * JZ n alpha ^ 2)); [ring|]. intros n. rewrite opp_IZR, !besselZ_sq. replace (Z.abs_nat (- n)) with (Z.abs_nat n) by lia. ring.
      * intros n _. rewrite HR. cbn [snd]. assert (R := J_recZ n alpha). replace (JZ (n - 1) alpha + JZ (n + 1) alpha) with (2 * IZR n * JZ n alpha / alpha) by (rewrite <- R; field; assumption). field. assumption.
  - intros b. rewrite (one_ac b (ac b) i (E2 b) Hi). fold V. rewrite ac_current_sums. unfold edge. rewrite !HR. unfold Cminus, Cplus, Copp, Re, Im. cbn [fst snd].
    rewrite (rsum_ext _ _ (fun _ => 0)). { assert (Z0 : forall l : list Z, rsum l (fun _ => 0) = 0) by (induction l as [|a l IH]; cbn [rsum]; [reflexivity|rewrite IH; ring]). rewrite Z0. ring. }
    intros n _. rewrite HR. cbn [fst]. ring.
Qed.

(** ** Convergence *)
Lemma one_diff b b' A B V : (b <= b')%nat -> 0 <= B -> (forall v, Rabs (Im (resp v)) <= A + B * Rabs v) ->
  Rabs (pumped_iv besselJ (fun v => Im (resp v)) f alpha b' V - pumped_iv besselJ (fun v => Im (resp v)) f alpha b V) <=
  (A + B * Rabs V) * (squares b' alpha - squares b alpha) + B * f * (moments b' alpha - moments b alpha).
Proof.
  intros L HB G. rewrite !pumped_sum. destruct (sym_split b b' L) as [l [r S]].
  assert (Q : forall h : Z -> R, rsum (sym b') h - rsum (sym b) h = rsum (l ++ r) h) by (intros h; rewrite S, !rsum_app; ring).
  rewrite <- !squaresZ, <- !momentsZ, !Q. rewrite <- !rsum_scal, <- rsum_plus. eapply Rle_trans; [apply rsum_abs|]. apply rsum_le. intros n _.
  rewrite Rabs_mult, (Rabs_pos_eq (JZ n alpha ^ 2)) by apply pow2_ge_0. replace ((A + B * Rabs V) * JZ n alpha ^ 2 + B * f * (IZR n ^ 2 * JZ n alpha ^ 2)) with (JZ n alpha ^ 2 * ((A + B * Rabs V) + B * (f * IZR n ^ 2))) by ring.
  apply Rmult_le_compat_l; [apply pow2_ge_0|]. eapply Rle_trans; [apply G|].
  assert (N2 : Rabs (IZR n) <= IZR n ^ 2). { rewrite <- pow2_abs, <- abs_IZR. assert (N : (0 <= Z.abs n)%Z) by lia. destruct (Z.eq_dec n 0) as [->|]. { cbn. lra. } assert (1 <= IZR (Z.abs n)) by (apply IZR_le; lia). nra. }
  assert (T := Rabs_triang V (IZR n * f)). rewrite Rabs_mult, (Rabs_pos_eq f) in T by lra. assert (0 <= f) by lra. assert (Rabs (V + IZR n * f) <= Rabs V + f * IZR n ^ 2) by nra. nra.
Qed.
Theorem one_converges A B (dc : nat -> list R) i : 0 <= B -> (forall v, Rabs (Im (resp v)) <= A + B * Rabs v) ->
  (forall b, qtcurrent besselJ vj cct resp (FScalar 0) (NbInt b) None = Ok (QReal (dc b))) -> (i < q_npts cct)%nat ->
  forall eps, 0 < eps -> exists N, forall b b', (N <= b)%nat -> (N <= b')%nat -> Rabs (nth i (dc b') 0 - nth i (dc b) 0) < eps.
Proof.
  intros HB G E Hi eps He. set (V := q_vb cct i). set (K1 := A + B * Rabs V). assert (K0 : 0 <= K1). { unfold K1. eapply Rle_trans; [apply Rabs_pos|]. apply G. }
  assert (X : approaches (fun b => K1 * squares b alpha) (K1 * 1)) by apply approaches_scal, squares_approach. assert (Y : approaches (fun b => B * f * moments b alpha) (B * f * (alpha ^ 2 / 2))) by apply approaches_scal, moments_approach.
  destruct (X (eps / 4)) as [N1 H1]; [lra|]. destruct (Y (eps / 4)) as [N2 H2]; [lra|]. exists (Nat.max N1 N2).
  assert (W : forall b b', (b <= b')%nat -> (Nat.max N1 N2 <= b)%nat -> Rabs (nth i (dc b') 0 - nth i (dc b) 0) < eps).
  { intros b b' L Hb. rewrite (one_dc b (dc b) i (E b) Hi), (one_dc b' (dc b') i (E b') Hi). fold V. eapply Rle_lt_trans; [apply (one_diff b b' A B V); assumption|]. fold K1.
    assert (P1 := H1 b ltac:(lia)). assert (P2 := H1 b' ltac:(lia)). assert (P3 := H2 b ltac:(lia)). assert (P4 := H2 b' ltac:(lia)). apply Rabs_def2 in P1, P2, P3, P4. lra. }
  intros b b' Hb Hb'. destruct (Nat.le_ge_cases b b') as [L|L]; [now apply W|]. rewrite Rabs_minus_sym. now apply W.
Qed.
End OneTone.
Theorem captured_rate b x : 0 <= 1 - captured b x <= 2 * Rabs x * (Rabs (x / 2) ^ (2 * b + 1) / (INR (fact b) * INR (fact (S b))) * exp (x ^ 2 / 2)).
Proof.
  rewrite captured_squares. assert (H := squares_near b x). assert (L := squares_le_1 b x). rewrite Rabs_left1 in H by lra. replace (2 * (x / 2) ^ 2) with (x ^ 2 / 2) in H by field. lra.
Qed.
