(** The classical limit of the tunnelling currents. *)
From Coq Require Import List ZArith Lia Bool Arith Reals Lra Psatz.
From Coquelicot Require Import Coquelicot.
From Verif Require Import Base Sums Round Bessel Model_QtCurrent Spec_QtCurrent Spec_QtApi Spec_Power Spec_Classical Proof_QtCurrent
  Proof_QtCurrent2 Proof_QtSym Proof_QtApi Proof_QtApi2 Proof_QtWit Proof_Bessel Proof_Bessel2 Proof_Weights Proof_Power Proof_Power2 Proof_Power3 Model_Tucker Proof_Moment4 Proof_Small.
Import ListNotations.
Open Scope R_scope.
Local Notation length := List.length.
Local Notation JZ := (besselZ besselJ).

(** ** Taylor's formula *)
Section Taylor.
Variables (n : nat) (g : nat -> R -> R).
Hypothesis D : derivatives n g.
Lemma derive_n k v : (k <= n)%nat -> Derive_n (g O) k v = g k v.
Proof.
  revert v. induction k as [|k IH]; intros v H; [reflexivity|]. cbn [Derive_n]. rewrite (Derive_ext _ (g k)) by (intros t; apply IH; lia). apply is_derive_unique. apply D. lia.
Qed.
Lemma ex_derive_n_g k v : (k <= n)%nat -> ex_derive_n (g O) k v.
Proof.
  destruct k as [|k]; intros H; [exact I|]. cbn [ex_derive_n]. apply ex_derive_ext with (g k). { intros t. symmetry. apply derive_n. lia. } eexists. apply D. lia.
Qed.
End Taylor.
Definition polynomial (g : nat -> R -> R) (x u : R) (n : nat) : R := sum_f_R0 (fun m => u ^ m / INR (fact m) * g m x) n.
Lemma taylor_right n g M x u : derivatives (S n) g -> (forall v, Rabs (g (S n) v) <= M) -> 0 < u -> Rabs (g O (x + u) - polynomial g x u n) <= M * u ^ S n / INR (fact (S n)).
Proof.
  intros D B U. destruct (Taylor_Lagrange (g O) n x (x + u)) as [z [Z E]]; [lra| |].
  - intros t _ k Hk. now apply ex_derive_n_g with (S n).
  - rewrite E. replace (x + u - x) with u by ring. rewrite (derive_n (S n) g D (S n) z) by lia. unfold polynomial.
    rewrite (sum_eq _ (fun m => u ^ m / INR (fact m) * g m x)) by (intros m Hm; rewrite (derive_n (S n) g D) by lia; reflexivity).
    match goal with |- Rabs ?e <= _ => replace e with (u ^ S n / INR (fact (S n)) * g (S n) z) by ring end.
    assert (F := INR_fact_lt_0 (S n)). assert (P : 0 <= u ^ S n / INR (fact (S n))) by (apply Rmult_le_pos; [apply pow_le; lra|left; now apply Rinv_0_lt_compat]).
    rewrite Rabs_mult, (Rabs_pos_eq _ P). replace (M * u ^ S n / INR (fact (S n))) with (u ^ S n / INR (fact (S n)) * M) by (field; lra). apply Rmult_le_compat_l; [exact P|apply B].
Qed.
Lemma taylor n g M x u : derivatives (S n) g -> (forall v, Rabs (g (S n) v) <= M) -> Rabs (g O (x + u) - polynomial g x u n) <= M * Rabs u ^ S n / INR (fact (S n)).
Proof.
  intros D B. assert (F := INR_fact_lt_0 (S n)). destruct (Rtotal_order u 0) as [U|[->|U]].
  - set (h := fun (k : nat) t => (-1) ^ k * g k (- t)).
    assert (D' : derivatives (S n) h).
    { intros k v Hk. unfold h. evar_last. { apply is_derive_scal. apply (is_derive_comp (g k) (fun t => - t)). apply D, Hk. apply @is_derive_opp, @is_derive_id. }
      unfold scal, opp, one; cbn. unfold mult; cbn. ring. }
    assert (B' : forall v, Rabs (h (S n) v) <= M) by (intros v; unfold h; rewrite Rabs_mult, pow_1_abs, Rmult_1_l; apply B).
    assert (T := taylor_right n h M (- x) (- u) D' B' ltac:(lra)). unfold h at 1 in T. rewrite pow_O, Rmult_1_l in T. replace (- (- x + - u)) with (x + u) in T by ring.
    rewrite (Rabs_left u) by lra. replace (polynomial g x u n) with (polynomial h (- x) (- u) n); [exact T|]. unfold polynomial. apply sum_eq. intros m _. unfold h. rewrite Ropp_involutive. replace (- u) with (-1 * u) by ring. rewrite Rpow_mult_distr.
    assert (Q : (-1) ^ m * (-1) ^ m = 1) by (rewrite <- Rpow_mult_distr; replace (-1 * -1) with 1 by ring; apply pow1). unfold Rdiv. transitivity (((-1) ^ m * (-1) ^ m) * (u ^ m * / INR (fact m) * g m x)); [ring|]. rewrite Q. ring.
  - rewrite Rplus_0_r. replace (polynomial g x 0 n) with (g O x). { replace (g O x - g O x) with 0 by ring. rewrite Rabs_R0, pow_i by lia. rewrite Rmult_0_r. unfold Rdiv. rewrite Rmult_0_l. lra. }
    unfold polynomial. destruct n as [|n']. { cbn. field. } rewrite decomp_sum by lia. rewrite (sum_eq _ (fun _ => 0)). { rewrite sum_eq_R0 by reflexivity. cbn. field. } intros m _. rewrite pow_i by lia. unfold Rdiv. ring.
  - assert (T := taylor_right n g M x u D B U). rewrite (Rabs_pos_eq u) by lra. exact T.
Qed.

Lemma rsum_err (l : list Z) (wt e : Z -> R) (K : R) (c : Z -> R) : (forall n, In n l -> Rabs (wt n * e n) <= K * c n) -> Rabs (rsum l (fun n => wt n * e n)) <= K * rsum l c.
Proof. intros H. eapply Rle_trans; [apply rsum_abs|]. rewrite <- rsum_scal. now apply rsum_le. Qed.
Lemma odd_3 b a : rsum (sym b) (fun n => IZR n ^ 3 * JZ n a ^ 2) = 0.
Proof. apply rsum_odd. intros n. rewrite opp_IZR, !besselZ_sq. replace (Z.abs_nat (- n)) with (Z.abs_nat n) by lia. ring. Qed.
Lemma odd_1 b a : rsum (sym b) (fun n => IZR n * JZ n a ^ 2) = 0.
Proof. apply rsum_odd. intros n. rewrite opp_IZR, !besselZ_sq. replace (Z.abs_nat (- n)) with (Z.abs_nat n) by lia. ring. Qed.
Lemma rabs_pow4 x : Rabs x ^ 4 = x ^ 4. Proof. replace (Rabs x ^ 4) with ((Rabs x ^ 2) ^ 2) by ring. rewrite pow2_abs. ring. Qed.

Lemma momentsZ' b x : rsum (sym b) (fun n => IZR n ^ 2 * JZ n x ^ 2) = moments b x.
Proof.
  induction b as [|b IH]. { rewrite rsum_sym_0. cbn [moments]. ring. }
  rewrite rsum_sym_S, IH, !besselZ_sq. cbn [moments]. replace (Z.abs_nat (Z.of_nat (S b))) with (S b) by lia. replace (Z.abs_nat (- Z.of_nat (S b))) with (S b) by lia. rewrite opp_IZR, <- INR_IZR_INZ. ring.
Qed.

(** ** The direct current *)
Section Curve.
Variables (g : nat -> R -> R) (M f a V : R).
Hypothesis f0 : 0 < f.
Lemma poly3 u : polynomial g V u 3 = g O V + u * g 1%nat V + u ^ 2 / 2 * g 2%nat V + u ^ 3 / 6 * g 3%nat V.
Proof. unfold polynomial. cbn [sum_f_R0]. replace (INR (fact 0)) with 1 by (cbn; lra). replace (INR (fact 1)) with 1 by (cbn; lra). replace (INR (fact 2)) with 2 by (cbn; lra). replace (INR (fact 3)) with 6 by (cbn; lra). field. Qed.
Lemma poly2 u : polynomial g V u 2 = g O V + u * g 1%nat V + u ^ 2 / 2 * g 2%nat V.
Proof. unfold polynomial. cbn [sum_f_R0]. replace (INR (fact 0)) with 1 by (cbn; lra). replace (INR (fact 1)) with 1 by (cbn; lra). replace (INR (fact 2)) with 2 by (cbn; lra). field. Qed.
Lemma dc_taylor b : derivatives 4 g -> (forall v, Rabs (g 4%nat v) <= M) ->
  Rabs (pumped_iv besselJ (g O) f a b V - (g O V * squares b a + f ^ 2 / 2 * g 2%nat V * moments b a)) <= M / 24 * (3 * (a * f) ^ 4 / 8 + f ^ 2 * (a * f) ^ 2 / 2).
Proof.
  intros D B. assert (M0 : 0 <= M) by (eapply Rle_trans; [apply Rabs_pos|apply (B 0)]).
  set (r := fun n : Z => g O (V + IZR n * f) - polynomial g V (IZR n * f) 3).
  assert (E : pumped_iv besselJ (g O) f a b V - (g O V * squares b a + f ^ 2 / 2 * g 2%nat V * moments b a) = rsum (sym b) (fun n => JZ n a ^ 2 * r n)).
  { rewrite pumped_sum. rewrite (rsum_ext (sym b) (fun n => JZ n a ^ 2 * g O (V + IZR n * f)) (fun n => JZ n a ^ 2 * r n + (g O V * JZ n a ^ 2 + (f * g 1%nat V * (IZR n * JZ n a ^ 2) + (f ^ 2 / 2 * g 2%nat V * (IZR n ^ 2 * JZ n a ^ 2) + f ^ 3 / 6 * g 3%nat V * (IZR n ^ 3 * JZ n a ^ 2)))))).
    2:{ intros n _. unfold r. rewrite poly3. field. }
    rewrite !rsum_plus, !rsum_scal, squaresZ, momentsZ', odd_1, odd_3. ring. }
  rewrite E. eapply Rle_trans; [apply (rsum_err _ _ _ (M * f ^ 4 / 24) (fun n => IZR n ^ 4 * JZ n a ^ 2))|].
  - intros n _. assert (T := taylor 3 g M V (IZR n * f) D B). fold (r n) in T. replace (INR (fact 4)) with 24 in T by (cbn; lra). rewrite Rabs_mult, (Rabs_pos_eq (JZ n a ^ 2)) by apply pow2_ge_0. rewrite rabs_pow4 in T.
    replace (M * f ^ 4 / 24 * (IZR n ^ 4 * JZ n a ^ 2)) with (JZ n a ^ 2 * (M * (IZR n * f) ^ 4 / 24)) by field. apply Rmult_le_compat_l; [apply pow2_ge_0|exact T].
  - fold (fourth b a). replace (M / 24 * (3 * (a * f) ^ 4 / 8 + f ^ 2 * (a * f) ^ 2 / 2)) with (M * f ^ 4 / 24 * (3 * a ^ 4 / 8 + a ^ 2 / 2)) by field. apply Rmult_le_compat_l; [|apply fourth_le]. assert (0 < f ^ 4) by now apply pow_lt. nra.
Qed.
(** The real part of the current at the tone's frequency, without the edge. *)
Lemma ac_taylor b : a <> 0 -> derivatives 3 g -> (forall v, Rabs (g 3%nat v) <= M) ->
  Rabs (rsum (sym b) (fun n => JZ n a * (JZ (n - 1) a + JZ (n + 1) a) * g O (V + IZR n * f)) - 2 / a * f * g 1%nat V * moments b a) <= M * (Rabs (a * f) ^ 3 / 8 + f ^ 2 * Rabs (a * f) / 6).
Proof.
  intros A0 D B. assert (M0 : 0 <= M) by (eapply Rle_trans; [apply Rabs_pos|apply (B 0)]). assert (AP : 0 < Rabs a) by now apply Rabs_pos_lt.
  set (r := fun n : Z => g O (V + IZR n * f) - polynomial g V (IZR n * f) 2).
  assert (E : rsum (sym b) (fun n => JZ n a * (JZ (n - 1) a + JZ (n + 1) a) * g O (V + IZR n * f)) - 2 / a * f * g 1%nat V * moments b a = rsum (sym b) (fun n => (2 * IZR n * JZ n a ^ 2 / a) * r n)).
  { rewrite (rsum_ext (sym b) (fun n => JZ n a * (JZ (n - 1) a + JZ (n + 1) a) * g O (V + IZR n * f)) (fun n => (2 * IZR n * JZ n a ^ 2 / a) * r n + (2 / a * g O V * (IZR n * JZ n a ^ 2) + (2 / a * f * g 1%nat V * (IZR n ^ 2 * JZ n a ^ 2) + f ^ 2 / a * g 2%nat V * (IZR n ^ 3 * JZ n a ^ 2))))).
    2:{ intros n _. unfold r. rewrite poly2. assert (R := J_recZ n a). replace (JZ (n - 1) a + JZ (n + 1) a) with (2 * IZR n * JZ n a / a) by (rewrite <- R; field; assumption). field. assumption. }
    rewrite !rsum_plus, !rsum_scal, momentsZ', odd_1, odd_3. ring. }
  rewrite E. eapply Rle_trans; [apply (rsum_err _ _ _ (M * f ^ 3 / (3 * Rabs a)) (fun n => IZR n ^ 4 * JZ n a ^ 2))|].
  - intros n _. assert (T := taylor 2 g M V (IZR n * f) D B). fold (r n) in T. replace (INR (fact 3)) with 6 in T by (cbn; lra). rewrite Rabs_mult, Rabs_div, !Rabs_mult, (Rabs_pos_eq 2), (Rabs_pos_eq (JZ n a ^ 2)) by (try lra; try assumption; apply pow2_ge_0).
    rewrite Rabs_mult, (Rabs_pos_eq f) in T by lra. set (k := Rabs (IZR n)) in *. replace (IZR n ^ 4) with (k ^ 4) by apply rabs_pow4.
    replace (M * f ^ 3 / (3 * Rabs a) * (k ^ 4 * JZ n a ^ 2)) with ((2 * k * JZ n a ^ 2 / Rabs a) * (M * (k * f) ^ 3 / 6)) by (field; lra). apply Rmult_le_compat_l; [|exact T].
    apply Rmult_le_pos; [|left; now apply Rinv_0_lt_compat]. apply Rmult_le_pos; [|apply pow2_ge_0]. assert (0 <= k) by apply Rabs_pos. lra.
  - fold (fourth b a). eapply Rle_trans; [apply Rmult_le_compat_l; [|apply fourth_le]|].
    + apply Rmult_le_pos; [apply Rmult_le_pos; [assumption|apply pow_le; lra]|]. left. apply Rinv_0_lt_compat. lra.
    + right. rewrite Rabs_mult, (Rabs_pos_eq f) by lra. rewrite <- (rabs_pow4 a), <- (pow2_abs a). field. lra.
Qed.
Lemma edge_taylor b : derivatives 3 g -> (forall v, Rabs (g 3%nat v) <= M) -> (1 <= b)%nat ->
  Rabs (g O (V + INR b * f) - g O (V - INR b * f)) <= INR b ^ 3 * (2 * f * Rabs (g 1%nat V) + M * f ^ 3 / 3).
Proof.
  intros D B Hb. assert (M0 : 0 <= M) by (eapply Rle_trans; [apply Rabs_pos|apply (B 0)]). assert (T1 := taylor 2 g M V (INR b * f) D B). assert (T2 := taylor 2 g M V (- (INR b * f)) D B). rewrite poly2 in T1, T2. replace (INR (fact 3)) with 6 in T1, T2 by (cbn; lra). fold (V - INR b * f) in T2.
  assert (B1 : 1 <= INR b) by (replace 1 with (INR 1) by (cbn; lra); now apply le_INR). rewrite Rabs_Ropp in T2. rewrite Rabs_mult, (Rabs_pos_eq (INR b)), (Rabs_pos_eq f) in T1, T2 by lra.
  set (m := INR b) in *. set (p := g O (V + m * f)) in *. set (q := g O (V - m * f)) in *. set (d := g 1%nat V) in *. assert (K : m <= m ^ 3) by (assert (1 <= m ^ 2) by nra; nra).
  apply Rle_trans with (2 * (m * f) * Rabs d + M * (m * f) ^ 3 / 3).
  - replace (p - q) with ((p - (g 0%nat V + m * f * d + (m * f) ^ 2 / 2 * g 2%nat V)) + - (q - (g 0%nat V + - (m * f) * d + (- (m * f)) ^ 2 / 2 * g 2%nat V)) + 2 * (m * f) * d) by field.
    eapply Rle_trans; [apply Rabs_triang|]. assert (X := Rabs_triang (p - (g 0%nat V + m * f * d + (m * f) ^ 2 / 2 * g 2%nat V)) (- (q - (g 0%nat V + - (m * f) * d + (- (m * f)) ^ 2 / 2 * g 2%nat V)))). rewrite Rabs_Ropp in X.
    rewrite (Rabs_mult (2 * (m * f))), (Rabs_pos_eq (2 * (m * f))) by nra. lra.
  - replace (m ^ 3 * (2 * f * Rabs d + M * f ^ 3 / 3)) with (2 * f * Rabs d * m ^ 3 + M * (m * f) ^ 3 / 3) by field. assert (0 <= 2 * f * Rabs d) by (apply Rmult_le_pos; [lra|apply Rabs_pos]). nra.
Qed.
End Curve.

(** ** qtcurrent *)
Section OneTone.
Variables (vj : nat -> nat -> vec) (cct : qcct) (resp : R -> C) (alpha : R).
Hypothesis HF : q_num_f cct = 1%nat.
Hypothesis HP : q_num_p cct = 1%nat.
Hypothesis Hf : / 10000 < q_freq cct 1.
Hypothesis Hv : forall i, (i < q_npts cct)%nat -> vj 1%nat 1%nat i = RtoC (alpha * q_freq cct 1).
Notation f := (q_freq cct 1).
Variables (g : nat -> R -> R) (M : R).
Hypothesis Hg : forall v, Im (resp v) = g O v.
Theorem classical_dc (dc : nat -> list R) i : derivatives 4 g -> (forall v, Rabs (g 4%nat v) <= M) ->
  (forall b, qtcurrent besselJ vj cct resp (FScalar 0) (NbInt b) None = Ok (QReal (dc b))) -> (i < q_npts cct)%nat ->
  settles_within (M / 24 * (3 * (alpha * f) ^ 4 / 8 + f ^ 2 * (alpha * f) ^ 2 / 2)) (fun b => nth i (dc b) 0) (g O (q_vb cct i) + (alpha * f) ^ 2 / 4 * g 2%nat (q_vb cct i)).
Proof.
  intros D B E Hi eps He. set (V := q_vb cct i).
  assert (A : approaches (fun b => g O V * squares b alpha + f ^ 2 / 2 * g 2%nat V * moments b alpha) (g O V * 1 + f ^ 2 / 2 * g 2%nat V * (alpha ^ 2 / 2))).
  { apply approaches_plus; apply approaches_scal; [apply squares_approach|apply moments_approach]. }
  destruct (A eps He) as [N HN]. exists N. intros b Hb. specialize (HN b Hb). assert (T := dc_taylor g M f alpha V ltac:(lra) b D B).
  rewrite (one_dc vj cct resp alpha HF HP Hf Hv b (dc b) i (E b) Hi). fold V. rewrite pumped_sum in *. rewrite (rsum_ext _ (fun n => JZ n alpha ^ 2 * Im (resp (V + IZR n * f))) (fun n => JZ n alpha ^ 2 * g O (V + IZR n * f))) by (intros; now rewrite Hg).
  replace (g O V + (alpha * f) ^ 2 / 4 * g 2%nat V) with (g O V * 1 + f ^ 2 / 2 * g 2%nat V * (alpha ^ 2 / 2)) by field.
  match type of T with Rabs ?t <= _ => match type of HN with Rabs ?u < _ => match goal with |- Rabs ?x < _ => replace x with (t + u) by ring end end end.
  eapply Rle_lt_trans; [apply Rabs_triang|]. lra.
Qed.
Theorem classical_ac (ac : nat -> list C) i : derivatives 3 g -> (forall v, Rabs (g 3%nat v) <= M) ->
  (forall b, qtcurrent besselJ vj cct resp (FList [f]) (NbInt b) None = Ok (QRows [ac b])) -> (i < q_npts cct)%nat ->
  settles_within (M * (Rabs (alpha * f) ^ 3 / 8 + f ^ 2 * Rabs (alpha * f) / 6)) (fun b => Re (nth i (ac b) (RtoC 0))) (alpha * f * g 1%nat (q_vb cct i)).
Proof.
  intros D B E Hi eps He. set (V := q_vb cct i). assert (M0 : 0 <= M) by (eapply Rle_trans; [apply Rabs_pos|apply (B 0)]).
  set (K := 2 * f * Rabs (g 1%nat V) + M * f ^ 3 / 3). assert (K0 : 0 <= K). { unfold K. assert (0 <= f ^ 3) by (apply pow_le; lra). assert (0 <= 2 * f * Rabs (g 1%nat V)) by (apply Rmult_le_pos; [lra|apply Rabs_pos]). nra. }
  assert (R : forall b, Re (nth i (ac b) (RtoC 0)) = rsum (sym b) (fun n => JZ n alpha * (JZ (n - 1) alpha + JZ (n + 1) alpha) * g O (V + IZR n * f)) - besselJ b alpha * besselJ (S b) alpha * (g O (V + INR b * f) - g O (V - INR b * f))).
  { intros b. rewrite (one_ac vj cct resp alpha HF HP Hf Hv b (ac b) i (E b) Hi). fold V. rewrite ac_current_sums. unfold Proof_QtWit.edge. rewrite JZ_edge'. replace (Z.of_nat b + 1)%Z with (Z.of_nat (S b)) by lia. rewrite !JZ_nat, <- INR_IZR_INZ. unfold Cminus, Cplus, Copp. cbn [fst snd]. rewrite re_pair, !Hg.
    rewrite (rsum_ext _ (fun n => JZ n alpha * (JZ (n - 1) alpha + JZ (n + 1) alpha) * Im (resp (V + IZR n * f))) (fun n => JZ n alpha * (JZ (n - 1) alpha + JZ (n + 1) alpha) * g O (V + IZR n * f))) by (intros; now rewrite Hg). ring. }
  destruct (Req_dec alpha 0) as [A0|A0].
  - exists O. intros b _. rewrite R. assert (JS : forall m, besselJ (S m) alpha = 0) by (intros m; rewrite A0; apply besselJ_S_0). rewrite JS.
    rewrite rsum_zero. { rewrite A0. replace (0 - besselJ b 0 * 0 * (g 0%nat (V + INR b * f) - g 0%nat (V - INR b * f)) - 0 * f * g 1%nat V) with 0 by ring. rewrite Rabs_R0. replace (0 * f) with 0 by ring. rewrite Rabs_R0. replace (0 ^ 3) with 0 by ring. unfold Rdiv. rewrite !Rmult_0_l, Rmult_0_r. lra. }
    intros n _. rewrite A0, !JZ_at_0. destruct (Z.eqb_spec n 0) as [->|]; [|ring]. cbn [Z.eqb Z.sub Z.add Z.opp]. ring.
  - assert (A : approaches (fun b => 2 / alpha * f * g 1%nat V * moments b alpha) (2 / alpha * f * g 1%nat V * (alpha ^ 2 / 2))) by (apply approaches_scal, moments_approach).
    destruct (A (eps / 2) ltac:(lra)) as [N1 HN1]. destruct (approaches_scal _ _ K (cube_vanish alpha) (eps / 2) ltac:(lra)) as [N2 HN2]. exists (S (Nat.max N1 N2)). intros b Hb. specialize (HN1 b ltac:(lia)). specialize (HN2 b ltac:(lia)).
    assert (T := ac_taylor g M f alpha V ltac:(lra) b A0 D B). assert (ED := edge_taylor g M f V ltac:(lra) b D B ltac:(lia)). fold K in ED.
    rewrite R. set (s := rsum _ _) in *. set (q := besselJ b alpha * besselJ (S b) alpha) in *. set (z := g O (V + INR b * f) - g O (V - INR b * f)) in *.
    rewrite Rmult_0_r, Rminus_0_r, Rabs_pos_eq in HN2 by (apply Rmult_le_pos; [assumption|]; apply Rmult_le_pos; [apply pow_le, pos_INR|apply Rabs_pos]).
    assert (QZ : Rabs (q * z) < eps / 2). { rewrite Rabs_mult. eapply Rle_lt_trans; [apply Rmult_le_compat_l; [apply Rabs_pos|exact ED]|]. replace (Rabs q * (INR b ^ 3 * K)) with (K * (INR b ^ 3 * Rabs q)) by ring. exact HN2. }
    replace (alpha * f * g 1%nat V) with (2 / alpha * f * g 1%nat V * (alpha ^ 2 / 2)) by (field; assumption).
    apply Rabs_le_between in T. apply Rabs_def2 in HN1. apply Rabs_def2 in QZ. apply Rabs_def1; lra.
Qed.
End OneTone.
