(** Proofs about kk_trans and kk_trans_trapz. *)
From Coq Require Import List ZArith Lia Bool Arith Reals Lra.
From Coquelicot Require Import Coquelicot.
From Verif Require Import Base Model_QtCurrent Proof_Circuit Float NumPy Proof_NumPy Spec_MathFn Model_MathFn Proof_IVModels.
Import ListNotations.
Open Scope R_scope.

(** ** Sums of sines and cosines *)
Lemma half_turn m : sin (IZR m * PI) = 0 /\ cos (IZR m * PI) = if Z.even m then 1 else -1.
Proof.
  assert (P : forall n : nat, sin (INR n * PI) = 0 /\ cos (INR n * PI) = if Nat.even n then 1 else -1).
  { induction n as [|n [S C]]; [simpl (INR 0); rewrite Rmult_0_l, sin_0, cos_0; split; reflexivity|].
    rewrite S_INR, Rmult_plus_distr_r, Rmult_1_l, neg_sin, neg_cos, S, C. rewrite Nat.even_succ, <- Nat.negb_even. destruct (Nat.even n); simpl; split; ring. }
  destruct (Z.le_gt_cases 0 m) as [H|H].
  - destruct (P (Z.to_nat m)) as [S C]. rewrite INR_IZR_INZ, Z2Nat.id in S, C by lia. split; [exact S|]. rewrite C.
    replace (Nat.even (Z.to_nat m)) with (Z.even m); [reflexivity|]. rewrite <- (Z2Nat.id m) at 1 by lia.
    clear. induction (Z.to_nat m) as [|k IH]; [reflexivity|]. rewrite Nat2Z.inj_succ, Z.even_succ, <- Z.negb_even, IH, Nat.even_succ, <- Nat.negb_even. reflexivity.
  - destruct (P (Z.to_nat (- m))) as [S C]. rewrite INR_IZR_INZ, Z2Nat.id in S, C by lia. rewrite opp_IZR, Ropp_mult_distr_l_reverse in S, C. rewrite sin_neg in S. rewrite cos_neg in C. split; [lra|]. rewrite C.
    replace (Nat.even (Z.to_nat (- m))) with (Z.even m); [reflexivity|]. rewrite <- (Z.opp_involutive m) at 1. rewrite Z.even_opp. rewrite <- (Z2Nat.id (- m)) at 1 by lia.
    clear. induction (Z.to_nat (- m)) as [|k IH]; [reflexivity|]. rewrite Nat2Z.inj_succ, Z.even_succ, <- Z.negb_even, IH, Nat.even_succ, <- Nat.negb_even. reflexivity.
Qed.

(** Sums of sines and cosines of multiples of an angle. *)
Lemma sine_sum M a : nsum M (fun k => 2 * sin (INR (S k) * (2 * a))) * sin a = cos a - cos ((2 * INR M + 1) * a).
Proof.
  induction M.
  - simpl nsum. simpl INR. rewrite Rmult_0_r, Rplus_0_l, Rmult_1_l. ring.
  - cbn [nsum]. rewrite Rmult_plus_distr_r, IHM. 
    replace ((2 * INR M + 1) * a) with (INR (S M) * (2 * a) - a) by (rewrite S_INR; ring).
    replace ((2 * INR (S M) + 1) * a) with (INR (S M) * (2 * a) + a) by (rewrite S_INR; ring). rewrite cos_minus, cos_plus. ring.
Qed.
Lemma cosine_sum N a : nsum N (fun k => cos (INR k * (2 * a))) * (2 * sin a) = sin ((2 * INR N - 1) * a) + sin a.
Proof.
  induction N.
  - simpl nsum. simpl INR. replace ((2 * 0 - 1) * a) with (- a) by ring. rewrite sin_neg. ring.
  - cbn [nsum]. rewrite Rmult_plus_distr_r, IHN. replace ((2 * INR (S N) - 1) * a) with (INR N * (2 * a) + a) by (rewrite S_INR; ring).
    replace ((2 * INR N - 1) * a) with (INR N * (2 * a) - a) by ring. rewrite sin_minus, sin_plus. ring.
Qed.
Lemma sin_nonzero N d : (0 < N)%nat -> (d mod Z.of_nat N <> 0)%Z -> sin (PI * IZR d / INR N) <> 0.
Proof.
  intros HN Hd E. apply sin_eq_0_0 in E. destruct E as [k E]. apply Hd.
  assert (INR N <> 0) by (apply not_0_INR; lia). pose proof PI_RGT_0.
  assert (K : IZR d = IZR (k * Z.of_nat N)).
  { rewrite mult_IZR, <- INR_IZR_INZ. apply (Rmult_eq_reg_l PI); [|lra]. replace (PI * IZR d) with (PI * IZR d / INR N * INR N) by (field; assumption). rewrite E. ring. }
  apply eq_IZR in K. rewrite K. apply Z.mod_mul. lia.
Qed.

(** ** The kernel *)
Definition ker (N : nat) (d : Z) : R := nsum N (fun k => hweight N k * sin (2 * PI * IZR (Z.of_nat k * d) / INR N)) / INR N.
Definition cker (N : nat) (d : Z) : R := nsum N (fun k => hweight N k * cos (2 * PI * IZR (Z.of_nat k * d) / INR N)) / INR N.

Lemma hweight_range N (f : nat -> R) : (0 < N)%nat -> (Nat.even N = true -> f (N / 2)%nat = 0) -> f 0%nat = 0 ->
  nsum N (fun k => hweight N k * f k) = nsum ((N - 1) / 2) (fun k => 2 * f (S k)).
Proof.
  intros HN HE H0. set (M := ((N - 1) / 2)%nat).
  assert (HM : (N = 2 * M + 1 \/ N = 2 * M + 2)%nat). { unfold M. pose proof (Nat.div_mod (N - 1) 2 ltac:(lia)). pose proof (Nat.mod_upper_bound (N - 1) 2 ltac:(lia)). lia. }
  replace N with (1 + (M + (N - 1 - M)))%nat at 1 by lia. rewrite nsum_app. cbn [nsum]. rewrite H0, Rmult_0_r, !Rplus_0_l. rewrite nsum_app.
  assert (E2 : (N mod 2 =? 0)%nat = Nat.even N). { destruct (Nat.even N) eqn:E; [apply Nat.eqb_eq|apply Nat.eqb_neq]; [apply Nat.even_spec in E; destruct E as [q ->]; rewrite Nat.mul_comm; apply Nat.mod_mul; lia|]. intros K. apply Nat.mod_divides in K; [|lia]. destruct K as [q K]. rewrite K, Nat.even_mul in E. discriminate. }
  rewrite (nsum_0 (N - 1 - M)), Rplus_0_r.
  - apply nsum_ext. intros k Hk. f_equal. unfold hweight. rewrite E2. replace (1 + k)%nat with (S k) by lia. change (S k =? 0)%nat with false. cbn [orb].
    destruct (Nat.even N) eqn:E.
    + destruct HM as [HM|HM]; [rewrite HM, Nat.even_add, Nat.even_mul in E; discriminate|].
      assert ((N / 2)%nat = (M + 1)%nat) by (rewrite HM; replace (2 * M + 2)%nat with ((M + 1) * 2)%nat by lia; apply Nat.div_mul; lia).
      destruct (Nat.eqb_spec (S k) (N / 2)); [lia|]. destruct (Nat.ltb_spec (S k) (N / 2)); [reflexivity|lia].
    + destruct HM as [HM|HM]; [|rewrite HM, Nat.even_add, Nat.even_mul in E; discriminate].
      assert (((N + 1) / 2)%nat = (M + 1)%nat) by (rewrite HM; replace (2 * M + 1 + 1)%nat with ((M + 1) * 2)%nat by lia; apply Nat.div_mul; lia).
      destruct (Nat.ltb_spec (S k) ((N + 1) / 2)); [reflexivity|lia].
  - intros k Hk. unfold hweight. rewrite E2. replace (1 + (M + k))%nat with (S (M + k)) by lia. change (S (M + k) =? 0)%nat with false. cbn [orb].
    destruct (Nat.even N) eqn:E.
    + destruct HM as [HM|HM]; [rewrite HM, Nat.even_add, Nat.even_mul in E; discriminate|].
      assert (D : (N / 2)%nat = (M + 1)%nat) by (rewrite HM; replace (2 * M + 2)%nat with ((M + 1) * 2)%nat by lia; apply Nat.div_mul; lia).
      destruct (Nat.eqb_spec (S (M + k)) (N / 2)) as [K|]; [rewrite K, HE by reflexivity; ring|]. destruct (Nat.ltb_spec (S (M + k)) (N / 2)); [lia|ring].
    + destruct HM as [HM|HM]; [|rewrite HM, Nat.even_add, Nat.even_mul in E; discriminate].
      assert (((N + 1) / 2)%nat = (M + 1)%nat) by (rewrite HM; replace (2 * M + 1 + 1)%nat with ((M + 1) * 2)%nat by lia; apply Nat.div_mul; lia).
      destruct (Nat.ltb_spec (S (M + k)) ((N + 1) / 2)); [lia|ring].
Qed.

Lemma ker_eq N d : (0 < N)%nat -> ker N d = hilbert_kernel N d.
Proof.
  intros HN. assert (HN' : INR N <> 0) by (apply not_0_INR; lia). unfold ker, hilbert_kernel. cbv zeta. set (a := PI * IZR d / INR N).
  rewrite (nsum_ext N _ (fun k => hweight N k * sin (INR k * (2 * a)))).
  2:{ intros k _. do 2 f_equal. unfold a. rewrite mult_IZR, <- INR_IZR_INZ. field. assumption. }
  destruct (Z.eqb_spec (d mod Z.of_nat N) 0) as [Z0|NZ].
  - rewrite nsum_0; [field; assumption|]. intros k _. apply Z.mod_divide in Z0; [|lia]. destruct Z0 as [q Q].
    replace (INR k * (2 * a)) with (IZR (2 * Z.of_nat k * q) * PI). 
    + rewrite (proj1 (half_turn _)). ring.
    + unfold a. rewrite Q, !mult_IZR, <- !INR_IZR_INZ. field. assumption.
  - pose proof (sin_nonzero N d HN NZ) as SN. fold a in SN.
    rewrite (hweight_range N (fun k => sin (INR k * (2 * a)))); [|assumption| |simpl (INR 0); rewrite Rmult_0_l; apply sin_0].
    2:{ intros E. apply Nat.even_spec in E. destruct E as [q Q]. rewrite Q at 1. rewrite Nat.mul_comm, Nat.div_mul by lia.
        replace (INR q * (2 * a)) with (IZR d * PI); [apply half_turn|]. unfold a. rewrite Q, mult_INR in *. simpl (INR 2) in *. field. lra. }
    pose proof (sine_sum ((N - 1) / 2) a) as S. set (T := nsum _ _) in *. set (M := ((N - 1) / 2)%nat) in *.
    assert (HM : (N = 2 * M + 1 \/ N = 2 * M + 2)%nat). { unfold M. pose proof (Nat.div_mod (N - 1) 2 ltac:(lia)). pose proof (Nat.mod_upper_bound (N - 1) 2 ltac:(lia)). lia. }
    assert (AN : a * INR N = IZR d * PI) by (unfold a; field; assumption).
    assert (T' : T = (cos a - cos ((2 * INR M + 1) * a)) / sin a) by (rewrite <- S; field; assumption). rewrite T'.
    destruct (half_turn d) as [HS HC].
    destruct (Nat.even N) eqn:E.
    + destruct HM as [HM|HM]; [rewrite HM, Nat.even_add, Nat.even_mul in E; discriminate|].
      replace ((2 * INR M + 1) * a) with (IZR d * PI - a). 2:{ rewrite <- AN, HM, plus_INR, mult_INR. simpl (INR 2). ring. }
      rewrite cos_minus, HS, HC. destruct (Z.even d); field; split; assumption.
    + destruct HM as [HM|HM]; [|rewrite HM, Nat.even_add, Nat.even_mul in E; discriminate].
      replace ((2 * INR M + 1) * a) with (IZR d * PI). 2:{ rewrite <- AN, HM, plus_INR, mult_INR. simpl (INR 2). simpl (INR 1). ring. }
      rewrite HC. reflexivity.
Qed.

Lemma ker_opp N d : ker N (- d) = - ker N d.
Proof.
  unfold ker. replace (nsum N _) with (-1 * nsum N (fun k => hweight N k * sin (2 * PI * IZR (Z.of_nat k * d) / INR N))); [unfold Rdiv; ring|].
  rewrite <- nsum_scal. apply nsum_ext. intros k _. rewrite Z.mul_opp_r, opp_IZR.
  replace (2 * PI * - IZR (Z.of_nat k * d) / INR N) with (- (2 * PI * IZR (Z.of_nat k * d) / INR N)) by (unfold Rdiv; ring). rewrite sin_neg. ring.
Qed.

(** ** The analytic signal *)
Lemma csumn_re n f : Re (csumn n f) = nsum n (fun k => Re (f k)).
Proof. unfold csumn. induction n; [reflexivity|]. rewrite seq_S, fold_left_app. cbn [fold_left plus nsum]. rewrite <- IHn. reflexivity. Qed.
Lemma csumn_im n f : Im (csumn n f) = nsum n (fun k => Im (f k)).
Proof. unfold csumn. induction n; [reflexivity|]. rewrite seq_S, fold_left_app. cbn [fold_left plus nsum]. rewrite <- IHn. reflexivity. Qed.
Lemma div_im z r : r <> 0 -> Im (Cdiv z (RtoC r)) = Im z / r.
Proof. intros H. destruct z. unfold Cdiv, Cinv, Cmult, RtoC, Im. simpl. field. assumption. Qed.
Lemma div_re z r : r <> 0 -> Re (Cdiv z (RtoC r)) = Re z / r.
Proof. intros H. destruct z. unfold Cdiv, Cinv, Cmult, RtoC, Re. simpl. field. assumption. Qed.

Lemma hilbert_ok x N : (0 < N)%nat -> exists a, hilbert x (Z.of_nat N) = Ok a /\ length a = N /\
  forall t, (t < N)%nat -> Im (nth t a (RtoC 0)) = nsum N (fun s => nth s x 0 * ker N (Z.of_nat t - Z.of_nat s)) /\
                     Re (nth t a (RtoC 0)) = nsum N (fun s => nth s x 0 * cker N (Z.of_nat t - Z.of_nat s)).
Proof.
  intros HN. assert (HN' : INR N <> 0) by (apply not_0_INR; lia). unfold hilbert. destruct (Z.ltb_spec 0 (Z.of_nat N)); [|lia]. cbn [guard bind]. rewrite Nat2Z.id.
  eexists. split; [reflexivity|]. unfold ifft. cbv zeta. rewrite !map_length, !seq_length. split; [reflexivity|]. intros t Ht. rewrite nth_map_seq by assumption.
  rewrite div_im, div_re by assumption. rewrite csumn_im, csumn_re.
  assert (X : forall k, (k < N)%nat -> cnth (fft (map RtoC x) N) k = csumn N (fun s => Cmult (RtoC (nth s x 0)) (root N (- (Z.of_nat k * Z.of_nat s))))).
  { intros k Hk. unfold cnth, fft. rewrite nth_map_seq by assumption. unfold csumn. f_equal. apply FunctionalExtensionality.functional_extensionality. intros c. apply FunctionalExtensionality.functional_extensionality. intros s.
    do 2 f_equal. unfold cnth. change (RtoC 0) with (RtoC 0). now rewrite map_nth. }
  assert (ANG : forall k s, 2 * PI * IZR (Z.of_nat k * (Z.of_nat t - Z.of_nat s)) / INR N = 2 * PI * IZR (Z.of_nat k * Z.of_nat t) / INR N + 2 * PI * IZR (- (Z.of_nat k * Z.of_nat s)) / INR N).
  { intros k s. rewrite !mult_IZR, minus_IZR, opp_IZR, mult_IZR. field. assumption. }
  split.
  - rewrite (nsum_ext N _ (fun k => nsum N (fun s => nth s x 0 * (hweight N k * sin (2 * PI * IZR (Z.of_nat k * (Z.of_nat t - Z.of_nat s)) / INR N))))).
    2:{ intros k Hk. unfold cnth at 1. rewrite nth_map_seq by assumption. rewrite X by assumption. set (Z := csumn N _).
        assert (ZR : Re Z = nsum N (fun s => nth s x 0 * cos (2 * PI * IZR (- (Z.of_nat k * Z.of_nat s)) / INR N))). { unfold Z. rewrite csumn_re. apply nsum_ext. intros s _. unfold root, expi, Re, Cmult, RtoC. simpl. ring. }
        assert (ZI : Im Z = nsum N (fun s => nth s x 0 * sin (2 * PI * IZR (- (Z.of_nat k * Z.of_nat s)) / INR N))). { unfold Z. rewrite csumn_im. apply nsum_ext. intros s _. unfold root, expi, Im, Cmult, RtoC. simpl. ring. }
        replace (Im _) with (hweight N k * sin (2 * PI * IZR (Z.of_nat k * Z.of_nat t) / INR N) * Re Z + hweight N k * cos (2 * PI * IZR (Z.of_nat k * Z.of_nat t) / INR N) * Im Z).
        2:{ unfold root, expi, Im, Re, Cmult, RtoC. destruct Z. simpl. ring. }
        rewrite ZR, ZI, <- !nsum_scal, <- nsum_plus. apply nsum_ext. intros s _. rewrite ANG, sin_plus. ring. }
    rewrite nsum_swap. unfold Rdiv at 1. rewrite Rmult_comm, <- nsum_scal. apply nsum_ext. intros s _. rewrite nsum_scal. unfold ker. unfold Rdiv. ring.
  - rewrite (nsum_ext N _ (fun k => nsum N (fun s => nth s x 0 * (hweight N k * cos (2 * PI * IZR (Z.of_nat k * (Z.of_nat t - Z.of_nat s)) / INR N))))).
    2:{ intros k Hk. unfold cnth at 1. rewrite nth_map_seq by assumption. rewrite X by assumption. set (Z := csumn N _).
        assert (ZR : Re Z = nsum N (fun s => nth s x 0 * cos (2 * PI * IZR (- (Z.of_nat k * Z.of_nat s)) / INR N))). { unfold Z. rewrite csumn_re. apply nsum_ext. intros s _. unfold root, expi, Re, Cmult, RtoC. simpl. ring. }
        assert (ZI : Im Z = nsum N (fun s => nth s x 0 * sin (2 * PI * IZR (- (Z.of_nat k * Z.of_nat s)) / INR N))). { unfold Z. rewrite csumn_im. apply nsum_ext. intros s _. unfold root, expi, Im, Cmult, RtoC. simpl. ring. }
        replace (Re (Cmult _ (root N _))) with (hweight N k * cos (2 * PI * IZR (Z.of_nat k * Z.of_nat t) / INR N) * Re Z + - hweight N k * sin (2 * PI * IZR (Z.of_nat k * Z.of_nat t) / INR N) * Im Z).
        2:{ unfold root, expi, Im, Re, Cmult, RtoC. destruct Z. simpl. ring. }
        rewrite ZR, ZI, <- !nsum_scal, <- nsum_plus. apply nsum_ext. intros s _. rewrite ANG, cos_plus. ring. }
    rewrite nsum_swap. unfold Rdiv at 1. rewrite Rmult_comm, <- nsum_scal. apply nsum_ext. intros s _. rewrite nsum_scal. unfold cker. unfold Rdiv. ring.
Qed.

(** The real part of the analytic signal is the signal. *)
Lemma hweight_pair N k : (0 < k < N)%nat -> hweight N k + hweight N (N - k) = 2.
Proof.
  intros H. unfold hweight. assert (N mod 2 < 2)%nat by (apply Nat.mod_upper_bound; lia). pose proof (Nat.div_mod N 2 ltac:(lia)) as D.
  destruct (Nat.eqb_spec (N mod 2) 0) as [E|E].
  - set (q := (N / 2)%nat) in *. destruct (Nat.eqb_spec k 0), (Nat.eqb_spec (N - k) 0), (Nat.eqb_spec k q), (Nat.eqb_spec (N - k) q), (Nat.ltb_spec k q), (Nat.ltb_spec (N - k) q); try lia; simpl; ring.
  - set (q := (N / 2)%nat) in *. assert (Q : ((N + 1) / 2)%nat = (q + 1)%nat). { replace (N + 1)%nat with ((q + 1) * 2)%nat by lia. apply Nat.div_mul. lia. } rewrite Q.
    destruct (Nat.eqb_spec k 0), (Nat.eqb_spec (N - k) 0), (Nat.ltb_spec k (q + 1)), (Nat.ltb_spec (N - k) (q + 1)); try lia; simpl; ring.
Qed.
Lemma cker_eq N d : (0 < N)%nat -> cker N d = if (d mod Z.of_nat N =? 0)%Z then 1 else 0.
Proof.
  intros HN. assert (HN' : INR N <> 0) by (apply not_0_INR; lia). unfold cker. set (a := PI * IZR d / INR N).
  assert (AN : a * INR N = IZR d * PI) by (unfold a; field; assumption).
  rewrite (nsum_ext N _ (fun k => hweight N k * cos (INR k * (2 * a)))).
  2:{ intros k _. do 2 f_equal. unfold a. rewrite mult_IZR, <- INR_IZR_INZ. field. assumption. }
  assert (W : nsum N (fun k => hweight N k * cos (INR k * (2 * a))) = nsum N (fun k => cos (INR k * (2 * a)))).
  { destruct N as [|m]; [lia|]. replace (S m) with (1 + m)%nat by lia. rewrite !nsum_app. cbn [nsum].
    assert (H0 : hweight (1 + m) 0 = 1). { unfold hweight. cbn [Nat.eqb orb]. destruct (_ =? 0)%nat; reflexivity. } rewrite H0, !Rplus_0_l, Rmult_1_l. f_equal.
    assert (P : 2 * nsum m (fun k => hweight (1 + m) (1 + k) * cos (INR (1 + k) * (2 * a))) = 2 * nsum m (fun i => cos (INR (1 + i) * (2 * a)))); [|lra].
    set (g := fun k => hweight (1 + m) (1 + k) * cos (INR (1 + k) * (2 * a))).
    replace (2 * nsum m g) with (nsum m g + nsum m (fun i => g (m - 1 - i)%nat)) by (rewrite nsum_rev; ring).
    rewrite <- nsum_plus, <- nsum_scal. apply nsum_ext. intros k Hk. unfold g.
    replace (1 + (m - 1 - k))%nat with (1 + m - (1 + k))%nat by lia.
    replace (cos (INR (1 + m - (1 + k)) * (2 * a))) with (cos (INR (1 + k) * (2 * a))).
    - rewrite <- (hweight_pair (1 + m) (1 + k)) by lia. ring.
    - rewrite minus_INR by lia. replace ((INR (1 + m) - INR (1 + k)) * (2 * a)) with (IZR (2 * d) * PI - INR (1 + k) * (2 * a)).
      + rewrite cos_minus. destruct (half_turn (2 * d)) as [-> ->]. rewrite Z.even_mul. simpl Z.even. cbn [orb]. ring.
      + rewrite mult_IZR. replace (2 * IZR d * PI) with (2 * (a * INR (S m))) by (rewrite AN; ring). change (1 + m)%nat with (S m). ring. }
  rewrite W. clear W. destruct (Z.eqb_spec (d mod Z.of_nat N) 0) as [Z0|NZ].
  - rewrite (nsum_ext N _ (fun _ => 1)).
    + assert (G : forall n, nsum n (fun _ => 1) = INR n) by (induction n; [reflexivity|cbn [nsum]; rewrite S_INR, IHn; ring]). rewrite G. field. assumption.
    + intros k _. apply Z.mod_divide in Z0; [|lia]. destruct Z0 as [q Q]. replace (INR k * (2 * a)) with (IZR (2 * (Z.of_nat k * q)) * PI).
      * rewrite (proj2 (half_turn _)). rewrite Z.even_mul. reflexivity.
      * unfold a. rewrite Q, !mult_IZR, <- !INR_IZR_INZ. field. assumption.
  - pose proof (sin_nonzero N d HN NZ) as SN. fold a in SN. pose proof (cosine_sum N a) as S.
    replace ((2 * INR N - 1) * a) with (IZR (2 * d) * PI - a) in S. 2:{ rewrite mult_IZR. replace (2 * IZR d * PI) with (2 * (a * INR N)) by (rewrite AN; ring). ring. }
    rewrite sin_minus in S. destruct (half_turn (2 * d)) as [S1 S2]. rewrite S1, S2, Z.even_mul in S. simpl Z.even in S. cbn [orb] in S.
    assert (T : nsum N (fun k => cos (INR k * (2 * a))) = 0). { apply (Rmult_eq_reg_r (2 * sin a)); [rewrite S; ring|lra]. } rewrite T. unfold Rdiv. ring.
Qed.
Lemma hilbert_real x N t : (0 < N)%nat -> (t < N)%nat -> exists a, hilbert x (Z.of_nat N) = Ok a /\ Re (nth t a (RtoC 0)) = nth t x 0.
Proof.
  intros HN Ht. destruct (hilbert_ok x N HN) as [a [E [_ H]]]. exists a. split; [exact E|]. rewrite (proj2 (H t Ht)).
  rewrite (nsum_single N _ t Ht).
  - rewrite cker_eq by assumption. rewrite Z.sub_diag, Z.mod_0_l by lia. rewrite Z.eqb_refl. ring.
  - intros s Hs N1. rewrite cker_eq by assumption. destruct (Z.eqb_spec ((Z.of_nat t - Z.of_nat s) mod Z.of_nat N) 0) as [K|]; [|ring].
    apply Z.mod_divide in K; [|lia]. destruct K as [q K]. exfalso. assert (q = 0 \/ q >= 1 \/ q <= -1)%Z as [->|[Q|Q]] by lia; nia.
Qed.

(** ** kk_trans *)
Lemma fold_max_spec l a : a <= fold_left Rmax l a /\ (forall b, In b l -> b <= fold_left Rmax l a) /\ (fold_left Rmax l a = a \/ In (fold_left Rmax l a) l).
Proof.
  revert a; induction l as [|c l IH]; intros a; cbn [fold_left]; [split; [lra|split; [intros b []|now left]]|].
  destruct (IH (Rmax a c)) as [H1 [H2 H3]]. pose proof (Rmax_l a c). pose proof (Rmax_r a c). split; [lra|]. split.
  - intros b [<-|Hb]; [lra|auto].
  - destruct H3 as [H3|H3]; [|right; now right]. rewrite H3. unfold Rmax. destruct (Rle_dec a c); [right; now left|now left].
Qed.
Lemma amax_lt l b : l <> [] -> exists m, amax l = Ok m /\ (Rltb m b = true <-> forall c, In c l -> c < b).
Proof.
  intros H. destruct l as [|a l]; [congruence|]. exists (fold_left Rmax l a). split; [reflexivity|]. destruct (fold_max_spec l a) as [H1 [H2 H3]]. split.
  - intros K. destruct (Rltb_spec (fold_left Rmax l a) b); [|discriminate]. intros c [<-|Hc]; [lra|]. pose proof (H2 c Hc). lra.
  - intros K. apply Rltb_t. destruct H3 as [->|H3]; apply K; [now left|now right].
Qed.

Lemma steps_length v : length (steps v) = (length v - 1)%nat.
Proof. unfold steps. rewrite zipwith_length; rewrite !pyslice_length, slice_pos, ?slice_neg by lia; lia. Qed.
Lemma steps_nth v k : (S k < length v)%nat -> nth k (steps v) 0 = nth (S k) v 0 - nth k v 0.
Proof.
  intros H. unfold steps. assert (L1 : length (pyslice v (Some 1%Z) None) = (length v - 1)%nat) by (rewrite pyslice_length, slice_pos by lia; lia).
  assert (L2 : length (pyslice v None (Some (-1)%Z)) = (length v - 1)%nat) by (rewrite pyslice_length, slice_neg by lia; lia).
  rewrite (nth_zipwith _ _ _ _ 0 0 0) by lia. rewrite !nth_pyslice by lia. rewrite slice_pos by lia. do 2 f_equal. lia.
Qed.
Lemma steps_in (f : R -> R) v b : (forall c, In c (map f (steps v)) -> c < b) <-> forall k, (S k < length v)%nat -> f (nth (S k) v 0 - nth k v 0) < b.
Proof.
  split.
  - intros H k Hk. apply H. apply in_map_iff. exists (nth k (steps v) 0). rewrite steps_nth by assumption. split; [reflexivity|]. rewrite <- steps_nth by assumption. apply nth_In. rewrite steps_length. lia.
  - intros H c Hc. apply in_map_iff in Hc. destruct Hc as [s [<- Hs]]. apply (In_nth _ _ 0) in Hs. destruct Hs as [k [Hk <-]]. rewrite steps_length in Hk. rewrite steps_nth by lia. apply H. lia.
Qed.

Lemma kk_ok v i n : length i = length v -> (2 <= length v)%nat -> (1 <= n)%Z -> even_grid v ->
  exists r, kk_trans v i n = Ok r /\ length r = length v /\
  forall t, (t < length v)%nat -> nth t r 0 = - nsum (length v) (fun s => (nth s i 0 - nth s v 0) * ker (length v * Z.to_nat n) (Z.of_nat t - Z.of_nat s)).
Proof.
  intros HL HV Hn HE. unfold kk_trans. rewrite !(pyget_nth _ _ 0) by lia. change (1 <? 0)%Z with false. change (0 <? 0)%Z with false. cbv iota. change (Z.to_nat 1) with 1%nat. change (Z.to_nat 0) with 0%nat. cbn [bind].
  destruct (amax_lt (map (fun d => Rabs (nth 1 v 0 - nth 0 v 0 - d)) (steps v)) (/ 10 ^ 5)) as [m [-> M]].
  { intros K. apply (f_equal (@length R)) in K. rewrite map_length, steps_length in K. simpl in K. lia. }
  rewrite steps_in in M. cbn [bind]. rewrite (proj2 M HE). cbn [guard bind]. rewrite bcast_eq by assumption. cbn [bind].
  set (x := zipwith Rminus i v). assert (LX : length x = length v) by (unfold x; rewrite zipwith_length; lia).
  set (N := (length v * Z.to_nat n)%nat). assert (HN : (length v <= N)%nat) by (unfold N; nia). replace (Z.of_nat (length v) * n)%Z with (Z.of_nat N) by (unfold N; rewrite Nat2Z.inj_mul, Z2Nat.id; lia).
  destruct (hilbert_ok x N ltac:(lia)) as [a [-> [LA A]]]. cbn [bind]. eexists. split; [reflexivity|].
  assert (LP : length (pyslice (map (fun z => - Im z) a) None (Some (Z.of_nat (length v)))) = length v) by (rewrite pyslice_length, slice_pos, map_length by lia; lia).
  split; [exact LP|]. intros t Ht. rewrite nth_pyslice by lia. cbv iota. change (0 + t)%nat with t.
  rewrite nth_indep with (d' := (fun z => - Im z) (RtoC 0)) by (rewrite map_length; lia). rewrite map_nth with (f := fun z => - Im z). cbv beta. rewrite (proj1 (A t ltac:(lia))). f_equal.
  replace N with (length v + (N - length v))%nat at 1 by lia. rewrite nsum_app. rewrite (nsum_0 (N - length v)), Rplus_0_r.
  - apply nsum_ext. intros s Hs. unfold x. rewrite (nth_zipwith _ _ _ _ 0 0 0) by lia. reflexivity.
  - intros k Hk. rewrite nth_overflow by lia. ring.
Qed.

Lemma kk_uneven v i n : (2 <= length v)%nat -> ~ even_grid v -> kk_trans v i n = Err AssertionError.
Proof.
  intros HV HE. unfold kk_trans. rewrite !(pyget_nth _ _ 0) by lia. change (1 <? 0)%Z with false. change (0 <? 0)%Z with false. cbv iota. change (Z.to_nat 1) with 1%nat. change (Z.to_nat 0) with 0%nat. cbn [bind].
  destruct (amax_lt (map (fun d => Rabs (nth 1 v 0 - nth 0 v 0 - d)) (steps v)) (/ 10 ^ 5)) as [m [-> M]].
  { intros K. apply (f_equal (@length R)) in K. rewrite map_length, steps_length in K. simpl in K. lia. }
  rewrite steps_in in M. cbn [bind]. destruct (Rltb m (/ 10 ^ 5)) eqn:E; [|reflexivity]. exfalso. apply HE. exact (proj1 M eq_refl).
Qed.
Lemma kk_short v i n : (length v < 2)%nat -> kk_trans v i n = Err IndexError.
Proof. intros H. unfold kk_trans. rewrite pyget_err by lia. reflexivity. Qed.
Lemma kk_nopad v i n : length i = length v -> (2 <= length v)%nat -> (n <= 0)%Z -> even_grid v -> kk_trans v i n = Err ValueError.
Proof.
  intros HL HV Hn HE. unfold kk_trans. rewrite !(pyget_nth _ _ 0) by lia. change (1 <? 0)%Z with false. change (0 <? 0)%Z with false. cbv iota. change (Z.to_nat 1) with 1%nat. change (Z.to_nat 0) with 0%nat. cbn [bind].
  destruct (amax_lt (map (fun d => Rabs (nth 1 v 0 - nth 0 v 0 - d)) (steps v)) (/ 10 ^ 5)) as [m [-> M]].
  { intros K. apply (f_equal (@length R)) in K. rewrite map_length, steps_length in K. simpl in K. lia. }
  rewrite steps_in in M. cbn [bind]. rewrite (proj2 M HE). cbn [guard bind]. rewrite bcast_eq by assumption. cbn [bind]. unfold hilbert.
  destruct (Z.ltb_spec 0 (Z.of_nat (length v) * n)); [nia|]. reflexivity.
Qed.

Lemma kk_formula v i n r t : length i = length v -> (1 <= n)%Z -> kk_trans v i n = Ok r -> (t < length v)%nat ->
  nth t r 0 = nsum (length v) (fun s => (nth s v 0 - nth s i 0) * hilbert_kernel (length v * Z.to_nat n) (Z.of_nat t - Z.of_nat s)).
Proof.
  intros HL Hn E Ht. destruct (Nat.lt_ge_cases (length v) 2) as [G|G]; [rewrite kk_short in E by assumption; discriminate|].
  destruct (Classical_Prop.classic (even_grid v)) as [V|V]; [|rewrite kk_uneven in E by assumption; discriminate].
  destruct (kk_ok v i n HL G Hn V) as [r' [E' [L K]]]. rewrite E in E'. injection E' as <-. rewrite K by assumption.
  replace (- nsum _ _) with (-1 * nsum (length v) (fun s => (nth s i 0 - nth s v 0) * ker (length v * Z.to_nat n) (Z.of_nat t - Z.of_nat s))) by ring.
  rewrite <- nsum_scal. apply nsum_ext. intros s Hs. rewrite ker_eq by nia. ring.
Qed.
Lemma kernel_opp N d : (0 < N)%nat -> hilbert_kernel N (- d) = - hilbert_kernel N d.
Proof. intros H. rewrite <- !ker_eq by assumption. apply ker_opp. Qed.

Lemma kk_even v i n r t : length i = length v -> (1 <= n)%Z -> kk_trans v i n = Ok r -> odd_list v -> odd_list i -> (t < length v)%nat ->
  nth (length v - 1 - t) r 0 = nth t r 0.
Proof.
  intros HL Hn E OV OI Ht. rewrite !(kk_formula v i n r) by (assumption || lia). rewrite <- (nsum_rev (length v)). apply nsum_ext. intros s Hs.
  rewrite OV by assumption. assert (OI' : nth (length v - 1 - s) i 0 = - nth s i 0) by (rewrite <- HL; apply OI; lia). rewrite OI'. replace (Z.of_nat (length v - 1 - t) - Z.of_nat (length v - 1 - s))%Z with (- (Z.of_nat t - Z.of_nat s))%Z by lia.
  rewrite kernel_opp by nia. ring.
Qed.
Lemma kk_affine v i j w n a b : length i = length v -> length j = length v -> length w = length v -> (1 <= n)%Z ->
  (forall k, (k < length v)%nat -> nth k w 0 = a * nth k i 0 + b * nth k j 0 + (1 - a - b) * nth k v 0) ->
  forall ri rj rw, kk_trans v i n = Ok ri -> kk_trans v j n = Ok rj -> kk_trans v w n = Ok rw ->
  forall t, (t < length v)%nat -> nth t rw 0 = a * nth t ri 0 + b * nth t rj 0.
Proof.
  intros Li Lj Lw Hn H ri rj rw Ei Ej Ew t Ht. rewrite (kk_formula v i n ri), (kk_formula v j n rj), (kk_formula v w n rw) by assumption.
  rewrite <- !nsum_scal, <- nsum_plus. apply nsum_ext. intros s Hs. rewrite H by assumption. ring.
Qed.
Lemma kk_resistor v n : (2 <= length v)%nat -> (1 <= n)%Z -> even_grid v -> kk_trans v v n = Ok (repeat 0 (length v)).
Proof.
  intros HV Hn HE. destruct (kk_ok v v n eq_refl HV Hn HE) as [r [E [L _]]]. rewrite E. f_equal. apply (list_ext _ _ 0); [now rewrite repeat_length|]. intros t Ht. rewrite nth_repeat' by lia.
  rewrite (kk_formula v v n r) by (assumption || lia). apply nsum_0. intros; ring.
Qed.

(** ** kk_trans_trapz *)
Lemma delete_length {A} (l : list A) a : (a < length l)%nat -> length (delete l a) = (length l - 1)%nat.
Proof. intros H. unfold delete. rewrite app_length, firstn_length, skipn_length. lia. Qed.
Lemma delete_nth {A} (l : list A) a k d : (a < length l)%nat -> nth k (delete l a) d = nth (if (k <? a)%nat then k else S k) l d.
Proof.
  intros H. unfold delete. assert (L : length (firstn a l) = a) by (rewrite firstn_length; lia). destruct (Nat.ltb_spec k a).
  - rewrite app_nth1 by lia. apply nth_firstn. assumption.
  - rewrite app_nth2 by lia. rewrite nth_skipn, L. f_equal. lia.
Qed.

Lemma trapz_result v i : length i = length v -> (2 <= length v)%nat -> 
  (shrinks_ok v -> exists r, kk_trans_trapz v i = Ok r /\ length r = length v /\
    forall a, (a < length v)%nat -> nth a r 0 = nsum (length v - 2) (fun k =>
      let p := if (k <? a)%nat then k else S k in let q := if (S k <? a)%nat then S k else S (S k) in
      (nth q v 0 - nth p v 0) * ((nth q i 0 - nth q v 0) / (nth q v 0 - nth a v 0) + (nth p i 0 - nth p v 0) / (nth p v 0 - nth a v 0)) / 2) / PI) /\
  (~ shrinks_ok v -> kk_trans_trapz v i = Err AssertionError).
Proof.
  intros HL HV. unfold kk_trans_trapz. rewrite !(pyget_nth _ _ 0) by lia. change (1 <? 0)%Z with false. change (0 <? 0)%Z with false. cbv iota. change (Z.to_nat 1) with 1%nat. change (Z.to_nat 0) with 0%nat. cbn [bind].
  destruct (amax_lt (map (fun d => d - (nth 1 v 0 - nth 0 v 0)) (steps v)) (/ 10 ^ 5)) as [m [-> M]].
  { intros K. apply (f_equal (@length R)) in K. rewrite map_length, steps_length in K. simpl in K. lia. }
  rewrite steps_in in M. cbn [bind]. split.
  - intros H. rewrite (proj2 M H). cbn [guard bind]. eexists. split; [reflexivity|]. rewrite map_length, seq_length. split; [reflexivity|]. intros a Ha. rewrite nth_map_seq by assumption. cbv zeta. f_equal.
    unfold trapz. rewrite lsum_map_seq. assert (D1 : length (delete v a) = (length v - 1)%nat) by (now apply delete_length). assert (D2 : length (delete i a) = (length v - 1)%nat) by (rewrite delete_length; lia).
    replace (length (delete v a) - 1)%nat with (length v - 2)%nat by lia. apply nsum_ext. intros k Hk. rewrite !(nth_zipwith _ _ _ _ 0 0 0) by lia. rewrite !delete_nth by lia. reflexivity.
  - intros H. destruct (Rltb m (/ 10 ^ 5)) eqn:E; [|reflexivity]. exfalso. apply H. exact (proj1 M eq_refl).
Qed.

Lemma trapz_resistor v : (2 <= length v)%nat -> shrinks_ok v -> kk_trans_trapz v v = Ok (repeat 0 (length v)).
Proof.
  intros HV HE. destruct (proj1 (trapz_result v v eq_refl HV) HE) as [r [E [L K]]]. rewrite E. f_equal. apply (list_ext _ _ 0); [now rewrite repeat_length|]. intros t Ht. rewrite nth_repeat' by lia.
  rewrite K by lia. rewrite nsum_0; [unfold Rdiv; ring|]. intros; cbv zeta; unfold Rdiv; ring.
Qed.
Lemma trapz_affine v i j w a b : length i = length v -> length j = length v -> length w = length v -> (2 <= length v)%nat ->
  (forall k, (k < length v)%nat -> nth k w 0 = a * nth k i 0 + b * nth k j 0 + (1 - a - b) * nth k v 0) ->
  forall ri rj rw, kk_trans_trapz v i = Ok ri -> kk_trans_trapz v j = Ok rj -> kk_trans_trapz v w = Ok rw ->
  forall t, (t < length v)%nat -> nth t rw 0 = a * nth t ri 0 + b * nth t rj 0.
Proof.
  intros Li Lj Lw HV H ri rj rw Ei Ej Ew t Ht. destruct (Classical_Prop.classic (shrinks_ok v)) as [SO|SO].
  - destruct (proj1 (trapz_result v i Li HV) SO) as [r1 [E1 [_ K1]]]. destruct (proj1 (trapz_result v j Lj HV) SO) as [r2 [E2 [_ K2]]]. destruct (proj1 (trapz_result v w Lw HV) SO) as [r3 [E3 [_ K3]]].
    rewrite E1 in Ei. rewrite E2 in Ej. rewrite E3 in Ew. injection Ei as <-. injection Ej as <-. injection Ew as <-. rewrite K1, K2, K3 by assumption.
    match goal with |- ?A / PI = _ * (?B / PI) + _ * (?C / PI) => cut (A = a * B + b * C) end; [intros ->; unfold Rdiv; ring|].
    rewrite <- !nsum_scal, <- nsum_plus. apply nsum_ext. intros k Hk. cbv zeta. rewrite !H by (destruct (Nat.ltb_spec k t), (Nat.ltb_spec (S k) t); lia). unfold Rdiv. ring.
  - rewrite (proj2 (trapz_result v i Li HV) SO) in Ei. discriminate.
Qed.
Lemma trapz_even v i r t : length i = length v -> (2 <= length v)%nat -> kk_trans_trapz v i = Ok r -> odd_list v -> odd_list i -> (t < length v)%nat ->
  nth (length v - 1 - t) r 0 = nth t r 0.
Proof.
  intros HL HV E OV OI Ht. destruct (Classical_Prop.classic (shrinks_ok v)) as [SO|SO]; [|rewrite (proj2 (trapz_result v i HL HV) SO) in E; discriminate].
  destruct (proj1 (trapz_result v i HL HV) SO) as [r' [E' [_ K]]]. rewrite E in E'. injection E' as <-. rewrite !K by lia. f_equal.
  rewrite <- (nsum_rev (length v - 2)). apply nsum_ext. intros k Hk. cbv zeta.
  set (p := if (k <? t)%nat then k else S k). set (q := if (S k <? t)%nat then S k else S (S k)).
  set (p' := if (length v - 2 - 1 - k <? length v - 1 - t)%nat then _ else _). set (q' := if (S (length v - 2 - 1 - k) <? length v - 1 - t)%nat then _ else _).
  assert (P : p' = (length v - 1 - q)%nat). { unfold p', q. destruct (Nat.ltb_spec (length v - 2 - 1 - k) (length v - 1 - t)), (Nat.ltb_spec (S k) t); lia. }
  assert (Q : q' = (length v - 1 - p)%nat). { unfold q', p. destruct (Nat.ltb_spec (S (length v - 2 - 1 - k)) (length v - 1 - t)), (Nat.ltb_spec k t); lia. }
  assert (HP : (p < length v)%nat) by (unfold p; destruct (Nat.ltb_spec k t); lia). assert (HQ : (q < length v)%nat) by (unfold q; destruct (Nat.ltb_spec (S k) t); lia).
  assert (OI' : forall k, (k < length v)%nat -> nth (length v - 1 - k) i 0 = - nth k i 0) by (intros; rewrite <- HL; apply OI; lia).
  rewrite P, Q. rewrite !OV, !OI' by assumption.
  assert (X : forall A B C, (- A - - B) / (- B - - C) = (A - B) / (B - C)).
  { intros A B C. replace (- A - - B) with (- (A - B)) by ring. replace (- B - - C) with (- (B - C)) by ring. destruct (Req_dec (B - C) 0) as [Z|Z]; [rewrite Z, Ropp_0; unfold Rdiv; rewrite Rinv_0; ring|field; lra]. }
  rewrite !X. unfold Rdiv. ring.
Qed.
Lemma uneven_accepted : let v := [0; 1; 3 / 2] in ~ even_grid v /\ exists r, kk_trans_trapz v v = Ok r.
Proof.
  assert (P : 0 < / 10 ^ 5) by (apply Rinv_0_lt_compat, pow_lt; lra).
  assert (Q : / 10 ^ 5 <= 1 / 4). { replace (1 / 4) with (/ 4) by field. apply Rinv_le_contravar; lra. }
  cbv zeta. split.
  - intros H. specialize (H 1%nat ltac:(simpl; lia)). simpl nth in H. replace (1 - 0 - (3 / 2 - 1)) with (1 / 2) in H by field. rewrite Rabs_pos_eq in H by lra. lra.
  - assert (S : shrinks_ok [0; 1; 3 / 2]). { intros [|[|k]] Hk; simpl in Hk; try lia; simpl nth; lra. }
    eexists. apply trapz_resistor; [simpl; lia|exact S].
Qed.
Lemma kk_length v i n : length i = length v -> (2 <= length v)%nat -> (1 <= n)%Z -> even_grid v -> exists r, kk_trans v i n = Ok r /\ length r = length v.
Proof. intros a b c d. destruct (kk_ok v i n a b c d) as [r [E [L _]]]. eauto. Qed.
Lemma kk_rejects v i n : length i = length v -> (2 <= length v)%nat -> (1 <= n)%Z ->
  (even_grid v <-> exists r, kk_trans v i n = Ok r) /\ (~ even_grid v <-> kk_trans v i n = Err AssertionError).
Proof.
  intros HL HV Hn. split; split.
  - intros E. destruct (kk_ok v i n HL HV Hn E) as [r [K _]]. eauto.
  - intros [r K]. apply Classical_Prop.NNPP. intros N. rewrite kk_uneven in K by assumption. discriminate.
  - now apply kk_uneven.
  - intros K G. destruct (kk_ok v i n HL HV Hn G) as [r [K' _]]. congruence.
Qed.
Lemma trapz_rejects v i : length i = length v -> (2 <= length v)%nat ->
  (shrinks_ok v -> exists r, kk_trans_trapz v i = Ok r) /\ (~ shrinks_ok v -> kk_trans_trapz v i = Err AssertionError).
Proof. intros HL HV. destruct (trapz_result v i HL HV) as [A B]. split; [|exact B]. intros S. destruct (A S) as [r [K _]]. eauto. Qed.
