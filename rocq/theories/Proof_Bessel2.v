(** The second moment of the squared Bessel functions. *)
From Coq Require Import Reals Lra Lia Arith.
From Coquelicot Require Import Coquelicot.
From Verif Require Import Bessel Proof_Bessel.
Open Scope R_scope.

Fixpoint moments (N : nat) (x : R) : R := match N with O => 0 | S N => moments N x + 2 * INR (S N) ^ 2 * besselJ (S N) x ^ 2 end.
Lemma moments_derive N x : exists d, is_derive (moments N) x d /\ x * d = 2 * moments N x - 2 * x * (INR N * (INR N + 1)) * (besselJ N x * besselJ (S N) x).
Proof.
  induction N as [|N [d [D E]]].
  - exists 0. split; [exact (is_derive_const (0 : R) x)|]. cbn [moments]. simpl (INR 0). ring.
  - assert (D' := is_derive_scal (fun x => besselJ (S N) x ^ 2) x (2 * INR (S N) ^ 2) _ (is_derive_pow (besselJ (S N)) 2 x _ (J_derive N x))).
    assert (F := is_derive_plus (moments N) (fun x => 2 * INR (S N) ^ 2 * besselJ (S N) x ^ 2) x _ _ D D'). eexists. split; [exact F|]. clear D D' F.
    assert (R := J_rec N x). cbn [moments]. set (m := INR (S N)) in *. replace (INR N) with (m - 1) in E by (unfold m; rewrite S_INR; ring). unfold plus; cbn -[besselJ INR].
    set (A := besselJ N x) in *. set (B := besselJ (S N) x) in *. set (C := besselJ (S (S N)) x) in *. clearbody A B C m.
    replace (x * (d + 2 * (m * (m * 1)) * (INR 2 * ((A - C) / 2) * (B * 1)))) with (x * d + 2 * m ^ 2 * B * (x * (A + C) - 2 * (x * C))) by (change (INR 2) with 2; field). rewrite E, R.
    assert (A' : x * A = 2 * m * B - x * C) by lra.
    replace (2 * moments N x - 2 * x * ((m - 1) * (m - 1 + 1)) * (A * B)) with (2 * moments N x - 2 * ((m - 1) * m) * B * (x * A)) by ring. rewrite A'. ring.
Qed.
(** Divided by (x/2)^2 *)
Fixpoint reduced (N : nat) (x : R) : R := match N with O => 0 | S N => reduced N x + 2 * INR (S N) ^ 2 * ((x / 2) ^ (2 * N) * P (S N) ((x / 2) ^ 2) ^ 2) end.
Lemma reduced_moments N x : (x / 2) ^ 2 * reduced N x = moments N x.
Proof.
  induction N as [|N IH]; cbn [reduced moments]; [ring|]. rewrite Rmult_plus_distr_l, IH, J_P. replace (2 * N)%nat with (N + N)%nat by lia. rewrite pow_add. rewrite (Rpow_mult_distr ((x / 2) ^ S N)), <- !tech_pow_Rmult. ring.
Qed.
Lemma reduced_0 N : reduced (S N) 0 = 2.
Proof.
  induction N as [|N IH].
  - cbn [reduced]. change (2 * 0)%nat with 0%nat. rewrite pow_O. unfold P. replace ((0 / 2) ^ 2) with 0 by field. rewrite PSeries_0. unfold bessel_coef. simpl. field.
  - cbn [reduced] in *. rewrite IH. replace (0 / 2) with 0 by field. rewrite (pow_i (2 * S N)) by lia. ring.
Qed.
Lemma reduced_cont N x : continuous (reduced N) x.
Proof.
  apply (ex_derive_continuous (reduced N)). induction N as [|N [d D]]. { exists 0. exact (is_derive_const (0 : R) x). }
  assert (Q : ex_derive (fun x => (x / 2) ^ (2 * N) * P (S N) ((x / 2) ^ 2) ^ 2) x).
  { apply ex_derive_mult. { auto_derive. exact I. }
    apply (ex_derive_pow (fun x => P (S N) ((x / 2) ^ 2)) 2). eexists. apply (is_derive_comp (P (S N)) (fun x => (x / 2) ^ 2)). apply P_derive. auto_derive; [exact I|reflexivity]. }
  destruct Q as [e Q]. assert (Q' := is_derive_scal (fun x => (x / 2) ^ (2 * N) * P (S N) ((x / 2) ^ 2) ^ 2) x (2 * INR (S N) ^ 2) _ Q).
  eexists. exact (is_derive_plus (reduced N) (fun x => 2 * INR (S N) ^ 2 * ((x / 2) ^ (2 * N) * P (S N) ((x / 2) ^ 2) ^ 2)) x _ _ D Q').
Qed.
Lemma reduced_derive N x : x <> 0 -> is_derive (reduced N) x (- 2 * (INR N * (INR N + 1)) * (besselJ N x * besselJ (S N) x) / (x / 2) ^ 2).
Proof.
  intros X. destruct (moments_derive N x) as [d [D E]].
  apply is_derive_ext_loc with (fun x => moments N x * (/ (x / 2) ^ 2)).
  { assert (X' : 0 < Rabs x) by now apply Rabs_pos_lt. exists (mkposreal _ X'). intros y Hy. change (Rabs (y - x) < Rabs x) in Hy.
    assert (Y : y <> 0). { intros ->. rewrite Rminus_0_l, Rabs_Ropp in Hy. lra. } assert (EQ : moments N y * / (y / 2) ^ 2 = reduced N y) by (rewrite <- reduced_moments; field; assumption). exact EQ. }
  assert (D2 : is_derive (fun x => / (x / 2) ^ 2) x (- 8 / x ^ 3)). { auto_derive. { assert ((x / 2) ^ 2 <> 0) by (apply pow_nonzero; lra). simpl in *. assumption. } field. assumption. }
  evar_last. { apply (is_derive_mult _ _ _ _ _ D D2). intros; apply Rmult_comm. } unfold plus, mult; cbn -[besselJ INR moments].
  assert (E' : @eq R d ((2 * moments N x - 2 * x * (INR N * (INR N + 1)) * (besselJ N x * besselJ (S N) x)) / x)).
  { assert (G : forall a b y : R, y <> 0 -> y * a = b -> a = b / y) by (intros a b y Y <-; field; assumption). exact (G _ _ _ X E). }
  rewrite E'. field. assumption.
Qed.
Theorem moments_near M x : Rabs (moments (S M) x - x ^ 2 / 2) <= 4 * Rabs (x / 2) ^ 3 * (Rabs (x / 2) ^ (2 * M + 1) / (INR (fact M) * INR (fact (S M))) * exp (2 * (x / 2) ^ 2)).
Proof.
  set (N := S M). set (h := Rabs (x / 2)). set (K := 2 * (h ^ (2 * M + 1) / (INR (fact M) * INR (fact (S M))) * exp (2 * (x / 2) ^ 2))).
  assert (FM : 0 < INR (fact M)) by apply INR_fact_lt_0. assert (FN : 0 < INR (fact N)) by apply INR_fact_lt_0. assert (FS : 0 < INR (fact (S N))) by apply INR_fact_lt_0.
  assert (H : Rabs (reduced N x - 2) <= Rabs x * K).
  { destruct (MVT_gen (reduced N) 0 x (fun y => - 2 * (INR N * (INR N + 1)) * (besselJ N y * besselJ (S N) y) / (y / 2) ^ 2)) as [c [HC E]].
    { intros y Hy. apply reduced_derive. intros ->. unfold Rmin, Rmax in Hy. destruct (Rle_dec 0 x); lra. }
    { intros y _. apply continuity_pt_filterlim, reduced_cont. }
    unfold N in E at 2. rewrite reduced_0 in E. rewrite E, Rminus_0_r.
    destruct (Req_dec c 0) as [->|C0].
    { replace (-2 * (INR N * (INR N + 1)) * (besselJ N 0 * besselJ (S N) 0) / (0 / 2) ^ 2 * x) with 0. 2:{ unfold N. rewrite besselJ_S_0. unfold Rdiv. ring. }
      rewrite Rabs_R0. apply Rmult_le_pos; [apply Rabs_pos|]. unfold K. apply Rmult_le_pos; [lra|]. apply Rmult_le_pos; [|left; apply exp_pos]. apply Rdiv_le_0_compat; [apply pow_le, Rabs_pos|now apply Rmult_lt_0_compat]. }
    assert (AC : Rabs c <= Rabs x). { unfold Rmin, Rmax in HC. destruct (Rle_dec 0 x); unfold Rabs; destruct (Rcase_abs c), (Rcase_abs x); lra. }
    set (k := Rabs (c / 2)). assert (KH : k <= h). { unfold k, h, Rdiv. rewrite !Rabs_mult. apply Rmult_le_compat_r; [apply Rabs_pos|assumption]. }
    assert (K0 : 0 < k) by (apply Rabs_pos_lt; lra).
    assert (EC : exp ((c / 2) ^ 2) <= exp ((x / 2) ^ 2)). { assert (LE : forall a b, a <= b -> exp a <= exp b) by (intros a b [L|L]; [left; now apply exp_increasing|right; now rewrite L]). apply LE. rewrite <- (pow2_abs (c / 2)), <- (pow2_abs (x / 2)). apply pow_incr. fold h k. lra. }
    assert (B1 := J_bound N c). assert (B2 := J_bound (S N) c). fold k in B1, B2. set (e := exp ((c / 2) ^ 2)) in *. assert (0 < e) by apply exp_pos.
    assert (PR := Rmult_le_compat _ _ _ _ (Rabs_pos _) (Rabs_pos _) B1 B2). rewrite Rmult_comm. rewrite !Rabs_mult. apply Rmult_le_compat_l; [apply Rabs_pos|].
    unfold Rdiv at 1. rewrite !Rabs_mult. rewrite Rabs_inv, <- RPow_abs. fold k. replace (Rabs (-2)) with 2 by (rewrite Rabs_left; lra).
    assert (N1 : INR N = INR M + 1) by (unfold N; apply S_INR). pose proof (pos_INR M). rewrite (Rabs_pos_eq (INR N)) by lra. rewrite (Rabs_pos_eq (INR N + 1)) by lra.
    apply Rle_trans with (2 * (INR N * (INR N + 1)) * (k ^ N / INR (fact N) * e * (k ^ S N / INR (fact (S N)) * e)) * / k ^ 2).
    { apply Rmult_le_compat_r; [left; apply Rinv_0_lt_compat; now apply pow_lt|]. apply Rmult_le_compat_l; [|exact PR]. nra. }
    apply Rle_trans with (2 * (k ^ (2 * M + 1) / (INR (fact M) * INR (fact (S M))) * (e * e))).
    { right. unfold N. rewrite (fact_simpl (S M)), mult_INR. replace (2 * M + 1)%nat with (M + S M)%nat by lia. rewrite pow_add, <- !tech_pow_Rmult. rewrite (fact_simpl M), mult_INR. rewrite !S_INR. field. repeat split; lra. }
    unfold K. apply Rmult_le_compat_l; [lra|]. apply Rmult_le_compat.
    - apply Rdiv_le_0_compat; [apply pow_le; lra|now apply Rmult_lt_0_compat].
    - nra.
    - apply Rmult_le_compat_r; [left; apply Rinv_0_lt_compat; now apply Rmult_lt_0_compat|]. apply pow_incr. lra.
    - replace (2 * (x / 2) ^ 2) with ((x / 2) ^ 2 + (x / 2) ^ 2) by ring. rewrite exp_plus. apply Rmult_le_compat; lra. }
  replace (moments N x - x ^ 2 / 2) with ((x / 2) ^ 2 * (reduced N x - 2)) by (rewrite <- reduced_moments; field). rewrite Rabs_mult, <- RPow_abs. fold h.
  apply Rle_trans with (h ^ 2 * (Rabs x * K)); [apply Rmult_le_compat_l; [apply pow_le, Rabs_pos|exact H]|]. right. unfold K, N. clear. generalize (h ^ (2 * M + 1) / (INR (fact M) * INR (fact (S M))) * exp (2 * (x / 2) ^ 2)). intros r. replace (Rabs x) with (2 * h). { clearbody h. ring. } unfold h, Rdiv. rewrite Rabs_mult, (Rabs_pos_eq (/ 2)) by lra. field.
Qed.
Lemma moments_incr N M x : (N <= M)%nat -> moments N x <= moments M x.
Proof. induction 1 as [|M H IH]; [lra|]. cbn [moments]. pose proof (pow2_ge_0 (besselJ (S M) x)). pose proof (pow2_ge_0 (INR (S M))). nra. Qed.
(** The factor of both bounds vanishes. *)
Lemma rate_limit h eps : 0 < eps -> exists N, forall M, (N <= M)%nat -> Rabs h ^ (2 * M + 1) / (INR (fact M) * INR (fact (S M))) < eps.
Proof.
  intros He. set (k := Rabs h). destruct (cv_speed_pow_fact k (Rmin 1 eps)) as [N HN]. { apply Rmin_pos; lra. }
  exists N. intros M HM.
  assert (T : forall j, (N <= j)%nat -> 0 <= k ^ j / INR (fact j) < Rmin 1 eps).
  { intros j Hj. assert (G : 0 <= k ^ j / INR (fact j)) by (apply Rdiv_le_0_compat; [apply pow_le, Rabs_pos|apply INR_fact_lt_0]). split; [assumption|]. specialize (HN j Hj). unfold R_dist in HN. rewrite Rminus_0_r, Rabs_pos_eq in HN by assumption. exact HN. }
  destruct (T M HM) as [A1 A2]. destruct (T (S M)) as [B1 B2]; [lia|]. assert (M1 := Rmin_l 1 eps). assert (M2 := Rmin_r 1 eps).
  replace (k ^ (2 * M + 1) / (INR (fact M) * INR (fact (S M)))) with (k ^ M / INR (fact M) * (k ^ S M / INR (fact (S M)))).
  { nra. } replace (2 * M + 1)%nat with (M + S M)%nat by lia. rewrite pow_add. pose proof (INR_fact_neq_0 M). pose proof (INR_fact_neq_0 (S M)). field. split; assumption.
Qed.
Lemma moments_limit x eps : 0 < eps -> exists N, forall M, (N <= M)%nat -> Rabs (moments M x - x ^ 2 / 2) < eps.
Proof.
  intros He. set (K := 4 * Rabs (x / 2) ^ 3 * exp (2 * (x / 2) ^ 2)). assert (K0 : 0 <= K). { unfold K. pose proof (exp_pos (2 * (x / 2) ^ 2)). pose proof (pow_le _ 3 (Rabs_pos (x / 2))). nra. }
  destruct (rate_limit (x / 2) (eps / (K + 1))) as [N HN]. { apply Rdiv_lt_0_compat; lra. }
  exists (S N). intros M HM. destruct M as [|M]; [lia|]. eapply Rle_lt_trans; [apply moments_near|]. specialize (HN M ltac:(lia)). set (r := Rabs (x / 2) ^ (2 * M + 1) / (INR (fact M) * INR (fact (S M)))) in *.
  replace (4 * Rabs (x / 2) ^ 3 * (r * exp (2 * (x / 2) ^ 2))) with (K * r) by (unfold K; ring).
  assert (Q : r * (K + 1) < eps). { apply Rmult_lt_reg_r with (/ (K + 1)); [apply Rinv_0_lt_compat; lra|]. replace (r * (K + 1) * / (K + 1)) with r by (field; lra). exact HN. }
  assert (0 <= r). { apply Rdiv_le_0_compat; [apply pow_le, Rabs_pos|]. apply Rmult_lt_0_compat; apply INR_fact_lt_0. } nra.
Qed.
Theorem moments_le N x : moments N x <= x ^ 2 / 2.
Proof.
  destruct (Rle_lt_dec (moments N x) (x ^ 2 / 2)) as [H|H]; [assumption|]. exfalso. destruct (moments_limit x (moments N x - x ^ 2 / 2)) as [M HM]; [lra|]. specialize (HM (Nat.max N M) ltac:(lia)).
  assert (S1 := moments_incr N (Nat.max N M) x ltac:(lia)). apply Rabs_def2 in HM. lra.
Qed.
