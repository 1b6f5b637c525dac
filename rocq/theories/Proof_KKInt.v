(** The Kramers-Kronig transform and the principal value integral. *)
From Coq Require Import List ZArith Bool Lia Reals Lra Psatz.
From Coquelicot Require Import Coquelicot.
From Verif Require Import Base Float NumPy Proof_NumPy Model_MathFn Spec_MathFn Proof_KK Spec_KK.
Import ListNotations.
Local Notation length := List.length.
Open Scope R_scope.

(** ** The kernel *)
Lemma mvt (f df : R -> R) x : 0 <= x -> (forall y, is_derive f y (df y)) -> exists c, 0 <= c <= x /\ f x - f 0 = df c * x.
Proof.
  intros X D. destruct (MVT_gen f 0 x df) as [c [C E]].
  - intros y _. apply D.
  - intros y _. apply continuity_pt_filterlim. apply (ex_derive_continuous f y). exists (df y). apply D.
  - rewrite Rmin_left, Rmax_right in C by assumption. exists c. split; [assumption|]. rewrite E. f_equal. ring.
Qed.
Lemma sine_upper x : 0 <= x -> sin x <= x.
Proof. intros [X|<-]; [left; now apply sin_lt_x|rewrite sin_0; lra]. Qed.
Lemma sine_rest x : 0 <= x <= PI / 2 -> 0 <= sin x - x * cos x <= x ^ 3 / 3.
Proof.
  intros X. assert (PP := PI_RGT_0). split.
  - destruct (mvt (fun y => sin y - y * cos y) (fun y => y * sin y) x) as [c [C E]]; [lra| |].
    + intros y. auto_derive; [trivial|ring].
    + cbv beta in E. rewrite sin_0, cos_0 in E. assert (0 <= c * sin c) by (apply Rmult_le_pos; [lra|apply sin_ge_0; lra]). nra.
  - destruct (mvt (fun y => y ^ 3 / 3 - (sin y - y * cos y)) (fun y => y * (y - sin y)) x) as [c [C E]]; [lra| |].
    + intros y. auto_derive; [trivial|field].
    + cbv beta in E. rewrite sin_0, cos_0 in E. assert (0 <= c * (c - sin c)) by (apply Rmult_le_pos; [lra|]; pose proof (sine_upper c); lra). nra.
Qed.
Lemma sine_lower x : 0 <= x <= PI / 2 -> x / 2 <= sin x.
Proof.
  intros X. assert (PP := PI_RGT_0). destruct (sine_rest (x / 2)) as [A _]; [lra|].
  assert (C : sqrt 2 / 2 <= cos (x / 2)). { apply Rle_trans with (cos (PI / 4)); [|apply cos_decr_1; lra]. rewrite cos_PI4. right. assert (S0 : 0 < sqrt 2) by (apply sqrt_lt_R0; lra). assert (S2 := sqrt_sqrt 2 ltac:(lra)).
    apply (Rmult_eq_reg_r (sqrt 2)); [|lra]. replace (sqrt 2 / 2 * sqrt 2) with (sqrt 2 * sqrt 2 / 2) by field. rewrite S2. field. lra. }
  assert (S0 : 0 < sqrt 2) by (apply sqrt_lt_R0; lra). assert (S2 := sqrt_sqrt 2 ltac:(lra)).
  replace (sin x) with (2 * sin (x / 2) * cos (x / 2)) by (rewrite <- sin_2a; f_equal; field).
  assert (X2 : x / 2 * (sqrt 2 / 2) <= sin (x / 2)) by (eapply Rle_trans; [apply Rmult_le_compat_l; [lra|exact C]|lra]).
  apply Rle_trans with (2 * (x / 2 * (sqrt 2 / 2)) * (sqrt 2 / 2)); [right; replace (2 * (x / 2 * (sqrt 2 / 2)) * (sqrt 2 / 2)) with (x / 4 * (sqrt 2 * sqrt 2)) by field; rewrite S2; field|].
  apply Rmult_le_compat; [apply Rmult_le_pos; [lra|apply Rmult_le_pos; lra]|lra|lra|exact C].
Qed.
Lemma cot_close x : 0 < x <= PI / 2 -> Rabs (cos x / sin x - / x) <= 2 / 3 * x.
Proof.
  intros X. destruct (sine_rest x) as [A B]; [lra|]. assert (C := sine_lower x ltac:(lra)).
  replace (cos x / sin x - / x) with (- ((sin x - x * cos x) / (x * sin x))) by (field; split; lra). rewrite Rabs_Ropp, Rabs_pos_eq.
  - apply Rle_div_l; [nra|]. assert (x ^ 3 / 3 = 2 / 3 * x * (x * (x / 2))) by field. assert (x * (x / 2) <= x * sin x) by nra. nra.
  - apply Rdiv_le_0_compat; nra.
Qed.
Lemma kernel_close_pos N d : (0 < d)%Z -> (2 * d <= Z.of_nat N)%Z -> Rabs (hilbert_kernel N d - open_kernel d) <= 6 * IZR d / INR N ^ 2.
Proof.
  intros D0 DN. assert (D1 : 0 < IZR d) by now apply IZR_lt. assert (N0 : 0 < INR N) by (apply lt_0_INR; lia).
  assert (ND : 2 * IZR d <= INR N) by (rewrite INR_IZR_INZ, <- mult_IZR; now apply IZR_le). assert (PP := PI_RGT_0). assert (P4 := PI_4).
  set (a := PI * IZR d / INR N). assert (A : 0 < a <= PI / 2).
  { unfold a. split; [apply Rdiv_lt_0_compat; nra|]. apply Rle_div_l; [assumption|]. nra. }
  assert (AB : a <= 4 * IZR d / INR N). { unfold a. apply Rmult_le_compat_r; [left; now apply Rinv_0_lt_compat|]. nra. }
  assert (SA := sine_lower a ltac:(lra)).
  unfold hilbert_kernel, open_kernel. fold a. destruct (Z.eqb_spec (d mod Z.of_nat N) 0) as [E|_]; [rewrite Z.mod_small in E by lia; lia|].
  assert (GOAL : forall c, 0 <= c -> c <= 3 / 2 -> c * a / INR N <= 6 * IZR d / INR N ^ 2).
  { intros c C0 C1. replace (6 * IZR d / INR N ^ 2) with (6 * IZR d / INR N / INR N) by (field; lra). apply Rmult_le_compat_r; [left; now apply Rinv_0_lt_compat|].
    replace (6 * IZR d / INR N) with (3 / 2 * (4 * IZR d / INR N)) by (field; lra). apply Rmult_le_compat; lra. }
  destruct (Nat.even N) eqn:EN, (Z.even d) eqn:ED.
  - rewrite Rminus_0_r, Rabs_R0. apply Rdiv_le_0_compat; [lra|]. now apply pow_lt.
  - replace (2 * cos a / sin a / INR N - 2 / (PI * IZR d)) with (2 / INR N * (cos a / sin a - / a)).
    + rewrite Rabs_mult, (Rabs_pos_eq (2 / INR N)) by (left; apply Rdiv_lt_0_compat; lra). eapply Rle_trans; [apply Rmult_le_compat_l; [left; apply Rdiv_lt_0_compat; lra|now apply cot_close]|].
      eapply Rle_trans; [|apply (GOAL (4 / 3)); lra]. right. field. lra.
    + unfold a at 3. field. repeat split; lra.
  - rewrite Rminus_0_r. set (b := a / 2). assert (SB := sine_lower b ltac:(unfold b; lra)). assert (UB := sine_upper b ltac:(unfold b; lra)).
    assert (CB : 1 / 2 <= cos b). { rewrite <- cos_PI3. apply cos_decr_1; unfold b; lra. }
    replace ((cos a - 1) / sin a) with (- (sin b / cos b)).
    + rewrite Rabs_div by lra. rewrite Rabs_Ropp, Rabs_pos_eq, (Rabs_pos_eq (INR N)) by (try lra; apply Rdiv_le_0_compat; unfold b in *; lra).
      eapply Rle_trans; [|apply (GOAL 1); lra]. apply Rmult_le_compat_r; [left; now apply Rinv_0_lt_compat|]. apply Rle_div_l; [lra|]. unfold b in *. nra.
    + replace a with (2 * b) by (unfold b; field). rewrite sin_2a, cos_2a_sin. field. unfold b in *. split; lra.
  - set (b := a / 2). assert (SB := sine_lower b ltac:(unfold b; lra)).
    replace ((cos a - -1) / sin a / INR N - 2 / (PI * IZR d)) with (/ INR N * (cos b / sin b - / b)).
    + rewrite Rabs_mult, (Rabs_pos_eq (/ INR N)) by (left; now apply Rinv_0_lt_compat). eapply Rle_trans; [apply Rmult_le_compat_l; [left; now apply Rinv_0_lt_compat|apply cot_close; unfold b; lra]|].
      eapply Rle_trans; [|apply (GOAL (1 / 3)); lra]. right. unfold b. field. lra.
    + assert (CB : 1 / 2 <= cos b). { rewrite <- cos_PI3. apply cos_decr_1; unfold b; lra. }
      replace ((cos a - -1) / sin a) with (cos b / sin b).
      * replace (/ b) with (2 * (INR N / (PI * IZR d))) by (unfold b, a; field; repeat split; lra). field. unfold b in *. repeat split; lra.
      * replace a with (2 * b) by (unfold b; field). rewrite sin_2a, cos_2a_cos. field. unfold b in *. split; lra.
Qed.
Lemma open_opp d : open_kernel (- d) = - open_kernel d.
Proof. unfold open_kernel. rewrite Z.even_opp, opp_IZR. destruct (Z.even d) eqn:E; [ring|]. assert (IZR d <> 0) by (apply IZR_neq; intros ->; discriminate). pose proof PI_RGT_0. field. lra. Qed.
Lemma kernel_close N d : (0 < N)%nat -> (2 * Z.abs d <= Z.of_nat N)%Z -> Rabs (hilbert_kernel N d - open_kernel d) <= 6 * Rabs (IZR d) / INR N ^ 2.
Proof.
  intros N0 H. destruct (Z.lt_trichotomy d 0) as [D|[->|D]].
  - replace d with (- - d)%Z by ring. rewrite kernel_opp, open_opp by assumption. replace (- hilbert_kernel N (- d) - - open_kernel (- d)) with (- (hilbert_kernel N (- d) - open_kernel (- d))) by ring. rewrite Rabs_Ropp.
    eapply Rle_trans; [apply kernel_close_pos; lia|]. right. do 2 f_equal. rewrite Z.opp_involutive, opp_IZR, Rabs_left; [reflexivity|]. now apply IZR_lt.
  - unfold hilbert_kernel, open_kernel. rewrite Z.mod_0_l by lia. cbn [Z.eqb Z.even]. rewrite Rminus_0_r, Rabs_R0. lra.
  - eapply Rle_trans; [apply kernel_close_pos; lia|]. right. do 2 f_equal. rewrite Rabs_pos_eq; [reflexivity|]. apply IZR_le. lia.
Qed.

(** ** Padding *)
Lemma nsum_abs n f : Rabs (nsum n f) <= nsum n (fun i => Rabs (f i)).
Proof. induction n; cbn [nsum]; [rewrite Rabs_R0; lra|]. eapply Rle_trans; [apply Rabs_triang|]. lra. Qed.
Lemma nsum_const n c : nsum n (fun _ => c) = INR n * c.
Proof. induction n; cbn [nsum]; [cbn; ring|]. rewrite IHn, S_INR. ring. Qed.
Lemma kk_padding v i n r t F : length i = length v -> (2 <= n)%Z -> kk_trans v i n = Ok r -> (t < length v)%nat ->
  (forall s, (s < length v)%nat -> Rabs (nth s i 0 - nth s v 0) <= F) ->
  Rabs (nth t r 0 - nsum (length v) (fun s => (nth s v 0 - nth s i 0) * open_kernel (Z.of_nat t - Z.of_nat s))) <= 6 * F / IZR n ^ 2.
Proof.
  intros L N E T B. rewrite (kk_formula v i n r t L ltac:(lia) E T). set (m := length v) in *. set (NN := (m * Z.to_nat n)%nat).
  assert (M0 : 0 < INR m) by (apply lt_0_INR; lia). assert (N0 : 0 < IZR n) by (apply IZR_lt; lia).
  assert (EN : INR NN = INR m * IZR n). { unfold NN. rewrite mult_INR. f_equal. rewrite INR_IZR_INZ, Z2Nat.id by lia. reflexivity. }
  assert (F0 : 0 <= F) by (eapply Rle_trans; [apply Rabs_pos|apply (B t T)]).
  match goal with |- Rabs (?a - ?b) <= _ => replace (a - b) with (nsum m (fun s => (nth s v 0 - nth s i 0) * (hilbert_kernel NN (Z.of_nat t - Z.of_nat s) - open_kernel (Z.of_nat t - Z.of_nat s)))) end.
  2:{ match goal with |- ?c = ?a - ?b => replace (a - b) with (a + (-1) * b) by ring end. rewrite <- nsum_scal, <- nsum_plus. apply nsum_ext. intros. ring. }
  eapply Rle_trans; [apply nsum_abs|]. apply Rle_trans with (nsum m (fun _ => F * (6 * INR m / INR NN ^ 2))).
  - apply nsum_le. intros s S. rewrite Rabs_mult. apply Rmult_le_compat; try apply Rabs_pos; [rewrite Rabs_minus_sym; now apply B|].
    eapply Rle_trans; [apply kernel_close; [unfold NN; nia|unfold NN; nia]|]. apply Rmult_le_compat_r; [left; apply Rinv_0_lt_compat, pow_lt; rewrite EN; nra|].
    apply Rmult_le_compat_l; [lra|]. rewrite <- abs_IZR, INR_IZR_INZ. apply IZR_le. lia.
  - rewrite nsum_const, EN. right. field. split; lra.
Qed.
