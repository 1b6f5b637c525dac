(** How much the truncation changes the balance of a circuit of one tone. *)
From Coq Require Import List ZArith Lia Bool Arith Reals Lra String.
From Coquelicot Require Import Coquelicot.
From Verif Require Proof_QtApi2 Proof_Converge.
From Verif Require Import Base Sums Round Bessel Model_QtCurrent Spec_QtCurrent Spec_QtApi Spec_Power Proof_QtCurrent Proof_QtWit Proof_Bessel Proof_Bessel2 Proof_Weights Proof_Power Proof_Known
  Model_Circuit Proof_Circuit Model_HB Spec_HB Spec_HBConv Proof_HB Proof_HB2 Proof_HB3 Proof_HB4 Proof_HB5 Proof_HB6 Proof_HBConv Proof_HBConv2 Proof_HBLip Proof_HBLip2 Proof_HBConv3 Proof_Lip1 Proof_Lip1HB.
Import ListNotations.
Local Notation length := List.length.
Local Notation JZ := (besselZ besselJ).
Open Scope R_scope.

Lemma products_0 {A} (l : list A) f g : rsum l (fun x => f x ^ 2) <= 0 -> rsum l (fun x => Rabs (f x) * Rabs (g x)) = 0.
Proof.
  induction l as [|x l IH]; intros H; cbn [rsum] in *; [reflexivity|]. pose proof (pow2_ge_0 (f x)). assert (0 <= rsum l (fun x => f x ^ 2)) by (apply rsum_nonneg; intros; apply pow2_ge_0).
  rewrite IH by lra. assert (E : f x = 0) by (apply (Rsqr_0_uniq (f x)); unfold Rsqr; nra). rewrite E, Rabs_R0. ring.
Qed.
Lemma products' {A} (l : list A) f g F G : 0 <= F -> 0 < G -> rsum l (fun x => f x ^ 2) <= F ^ 2 -> rsum l (fun x => g x ^ 2) <= G ^ 2 -> rsum l (fun x => Rabs (f x) * Rabs (g x)) <= F * G.
Proof.
  intros [F0|<-] G0 HF HG; [now apply products|]. rewrite products_0; [lra|]. eapply Rle_trans; [exact HF|right; ring].
Qed.
Lemma pair_lip' b f g f' g' r R0 D : 0 <= R0 -> 0 <= D -> (forall k, In k (sym b) -> Cmod (r k) <= R0) ->
  rsum (sym b) (fun k => Cmod (g k) ^ 2) <= 1 ^ 2 -> rsum (sym b) (fun k => Cmod (f' k) ^ 2) <= 1 ^ 2 ->
  rsum (sym b) (fun k => Cmod (f k - f' k)%C ^ 2) <= D ^ 2 -> rsum (sym b) (fun k => Cmod (g k - g' k)%C ^ 2) <= D ^ 2 ->
  Cmod (pair_sum b f g r - pair_sum b f' g' r)%C <= 2 * R0 * D.
Proof.
  intros P0 D0 HR HG HF HDF HDG. unfold pair_sum, Cminus. rewrite <- csum_opp, <- csum_plus. eapply Rle_trans; [apply Cmod_csum|].
  apply Rle_trans with (rsum (sym b) (fun k => R0 * (Rabs (Cmod (f k - f' k)%C) * Rabs (Cmod (g k)) + Rabs (Cmod (g k - g' k)%C) * Rabs (Cmod (f' k))))).
  - apply rsum_le. intros k Hk. rewrite !abs_cmod.
    replace (f k * Cconj (g k) * r k + - (f' k * Cconj (g' k) * r k))%C with ((f k * Cconj (g k) - f' k * Cconj (g' k)) * r k)%C by ring. rewrite Cmod_mult, (Rmult_comm R0).
    apply Rmult_le_compat; [apply Cmod_ge_0|apply Cmod_ge_0| |now apply HR]. eapply Rle_trans; [apply mult_diff|]. rewrite conj_minus, !conj_mod. lra.
  - rewrite rsum_scal, rsum_plus. assert (H1 := products' (sym b) (fun k => Cmod (f k - f' k)%C) (fun k => Cmod (g k)) D 1 D0 ltac:(lra) HDF HG). assert (H2 := products' (sym b) (fun k => Cmod (g k - g' k)%C) (fun k => Cmod (f' k)) D 1 D0 ltac:(lra) HDG HF). cbv beta in H1, H2.
    rewrite (Rmult_comm 2), Rmult_assoc. apply Rmult_le_compat_l; [assumption|]. lra.
Qed.

(** ** Two truncations *)
Lemma coef_mod v a k : Cmod (coef v a k) ^ 2 = JZ k (Cmod v / a) ^ 2.
Proof. unfold coef, jacobi_anger. now rewrite Cmod_mult, cis_mod, Rmult_1_r, Cmod_R, pow2_abs. Qed.
Lemma cut_rsum N b (g : Z -> R) : (b <= N)%nat -> rsum (sym N) (fun k => if (Z.abs k <=? Z.of_nat b)%Z then g k else 0) = rsum (sym b) g.
Proof.
  intros L. assert (H := csum_cut_sym N b (fun k => RtoC (g k)) L). assert (E : forall l (h : Z -> R), csum l (fun k => RtoC (h k)) = RtoC (rsum l h)).
  { intros l h. induction l as [|k l IH]; [reflexivity|]. cbn [csum rsum]. rewrite IH. now rewrite <- RtoC_plus. }
  rewrite E in H. rewrite (csum_ext _ _ (fun k => RtoC (if (Z.abs k <=? Z.of_nat b)%Z then g k else 0))) in H by (intros k _; unfold cut; destruct (_ <=? _)%Z; reflexivity). rewrite E in H. now apply RtoC_inj in H.
Qed.
Lemma left_out n b b' v a : (b <= b')%nat -> rsum (sym n) (fun k => Cmod (cut b (coef v a) k - cut b' (coef v a) k)%C ^ 2) <= 1 - captured b (Cmod v / a).
Proof.
  intros L. set (x := Cmod v / a).
  apply Rle_trans with (rsum (sym (n + b)) (fun k => JZ k x ^ 2 + -1 * (if (Z.abs k <=? Z.of_nat b)%Z then JZ k x ^ 2 else 0))).
  - apply Rle_trans with (rsum (sym n) (fun k => JZ k x ^ 2 + -1 * (if (Z.abs k <=? Z.of_nat b)%Z then JZ k x ^ 2 else 0))).
    + apply rsum_le. intros k _. pose proof (coef_mod v a k) as CM. fold x in CM. rewrite <- CM. unfold cut. pose proof (pow2_ge_0 (Cmod (coef v a k))). destruct (Z.leb_spec (Z.abs k) (Z.of_nat b)).
      * destruct (Z.leb_spec (Z.abs k) (Z.of_nat b')); [|lia]. replace (coef v a k - coef v a k)%C with (RtoC 0) by ring. rewrite Cmod_0. lra.
      * replace (RtoC 0 - (if (Z.abs k <=? Z.of_nat b')%Z then coef v a k else RtoC 0))%C with (- (if (Z.abs k <=? Z.of_nat b')%Z then coef v a k else RtoC 0))%C by ring. rewrite Cmod_opp. destruct (_ <=? _)%Z; [lra|rewrite Cmod_0; lra].
    + apply rsum_sub; [apply sym_NoDup|intros k Hk; apply in_sym in Hk; apply in_sym; lia|]. intros k. pose proof (pow2_ge_0 (JZ k x)). destruct (_ <=? _)%Z; lra.
  - rewrite rsum_plus, rsum_scal, cut_rsum by lia. rewrite !squaresZ, captured_squares. pose proof (squares_le_1 (n + b) x). lra.
Qed.
Lemma pair_wider b b' f g r : (b <= b')%nat -> pair_sum b (cut b f) g r = pair_sum b' (cut b f) g r.
Proof.
  intros L. unfold pair_sum. rewrite <- (csum_cut_sym b' b) by assumption. apply csum_ext. intros k _. unfold cut. destruct (_ <=? _)%Z; [reflexivity|ring].
Qed.

Section Two.
Variables (q : qcct) (resp : R -> C) (b b' : nat) (R0 : R) (i : nat).
Hypothesis HF : q_num_f q = 1%nat.
Hypothesis HP : q_num_p q = 1%nat.
Hypothesis Hf : / 10000 < q_freq q 1.
Hypothesis L : (b <= b')%nat.
Hypothesis HR : forall k : Z, (Z.abs k <= Z.of_nat b')%Z -> Cmod (resp (q_vb q i + IZR k * q_freq q 1)) <= R0.
Local Notation a := (q_freq q 1).
Local Notation r := (fun k => resp (q_vb q i + IZR k * a)).

Lemma both_le x n m d : rsum (sym n) (fun k => Cmod (cut m (cut m (coef x (1 * a))) (k + d)%Z) ^ 2) <= 1 ^ 2.
Proof. apply cuts_1. Qed.
Lemma both_near x d : rsum (sym b') (fun k => Cmod (cut b (cut b (coef x (1 * a))) (k + d)%Z - cut b' (cut b' (coef x (1 * a))) (k + d)%Z)%C ^ 2) <= sqrt (1 - captured b (Cmod x / a)) ^ 2.
Proof.
  rewrite pow2_sqrt by (pose proof (captured_bounds b (Cmod x / a)); lra).
  rewrite (rsum_ext _ _ (fun k => Cmod (cut b (coef x (1 * a)) (k + d)%Z - cut b' (coef x (1 * a)) (k + d)%Z)%C ^ 2)) by (intros k _; now rewrite !cut_cut).
  apply (moved b' d (fun k => Cmod (cut b (coef x (1 * a)) k - cut b' (coef x (1 * a)) k)%C ^ 2)); [intros; apply pow2_ge_0|]. intros n. rewrite Rmult_1_l. now apply left_out.
Qed.
Lemma unshift f n : rsum (sym n) (fun k => f (k + 0)%Z) = rsum (sym n) f.
Proof. apply rsum_ext. intros k _. now rewrite Z.add_0_r. Qed.
Theorem truncation v w : round4 w = round4 a ->
  Cmod (current (q_num_p q) (tones besselJ v q (NbInt b) i) (freqs q) (q_vb q i) resp w - current (q_num_p q) (tones besselJ v q (NbInt b') i) (freqs q) (q_vb q i) resp w)%C
  <= 4 * R0 * sqrt (1 - captured b (Cmod (v 1%nat 1%nat i) / a)).
Proof.
  intros Hw. rewrite (one_ac q resp (NbInt b) HF HP Hf i v w Hw), (one_ac q resp (NbInt b') HF HP Hf i v w Hw). cbn [nbtuple repeat nth]. cbv zeta. set (x := v 1%nat 1%nat i). set (D := sqrt _).
  assert (P0 : 0 <= R0). { eapply Rle_trans; [apply Cmod_ge_0|apply (HR 0%Z)]. lia. }
  assert (PP : forall d, Cmod (pair_sum b (cut b (coef x (1 * a))) (fun k => cut b (cut b (coef x (1 * a))) (k + d)%Z) r - pair_sum b' (cut b' (coef x (1 * a))) (fun k => cut b' (cut b' (coef x (1 * a))) (k + d)%Z) r)%C <= 2 * R0 * D).
  { intros d. rewrite (pair_wider b b') by assumption. apply pair_lip'; [assumption|apply sqrt_pos| | | | |apply both_near].
    - intros k Hk. apply in_sym in Hk. apply HR. lia.
    - apply both_le.
    - pose proof (both_le x b' b' 0) as H. rewrite (unshift (fun k => Cmod (cut b' (cut b' (coef x (1 * a))) k) ^ 2)) in H. rewrite (rsum_ext _ _ (fun k => Cmod (cut b' (coef x (1 * a)) k) ^ 2)) in H by (intros k _; now rewrite cut_cut). exact H.
    - pose proof (both_near x 0) as H. rewrite (unshift (fun k => Cmod (cut b (cut b (coef x (1 * a))) k - cut b' (cut b' (coef x (1 * a))) k)%C ^ 2)) in H. rewrite (rsum_ext _ _ (fun k => Cmod (cut b (coef x (1 * a)) k - cut b' (coef x (1 * a)) k)%C ^ 2)) in H by (intros k _; now rewrite !cut_cut). exact H. }
  pose proof (PP 1%Z) as P1. pose proof (PP (-1)%Z) as P2. clear PP.
  match type of P1 with Cmod (?X - ?X')%C <= _ => match type of P2 with Cmod (?Y - ?Y')%C <= _ => set (A := X) in *; set (A' := X') in *; set (B := Y) in *; set (B' := Y') in * end end.
  replace (- Ci * A + Ci * Cconj B - (- Ci * A' + Ci * Cconj B'))%C with (- Ci * (A - A') + Ci * (Cconj B - Cconj B'))%C by ring.
  eapply Rle_trans; [apply Cmod_triangle|]. rewrite conj_minus, !Cmod_mult, Cmod_opp, Ci_mod, conj_mod, !(Rmult_1_l (Cmod _)). lra.
Qed.
End Two.

(** ** Two balances *)
Section Balance.
Variables (c : hcct) (resp : R -> C) (b b' : nat) (R0 : R).
Local Notation q := (h_q c).
Local Notation z := (Cmod (h_zt c 1%nat 1%nat)).
Hypothesis HF : q_num_f q = 1%nat.
Hypothesis HP : q_num_p q = 1%nat.
Hypothesis Hf : / 10000 < q_freq q 1.
Hypothesis L : (b <= b')%nat.
Hypothesis HR : forall i (k : Z), (i < q_npts q)%nat -> (Z.abs k <= Z.of_nat b')%Z -> Cmod (resp (q_vb q i + IZR k * q_freq q 1)) <= R0.
Local Notation kk := (4 * R0 * z / q_freq q 1).
Hypothesis K : 0 <= kk < 1.

Lemma imbalance_wider v i : (i < q_npts q)%nat -> imbalance besselJ c resp (NbInt b') v i <= imbalance besselJ c resp (NbInt b) v i + 4 * R0 * z * sqrt (1 - captured b (Cmod (v 1%nat 1%nat i) / q_freq q 1)).
Proof.
  intros Hi. unfold imbalance. rewrite !(one_total c HF HP). unfold residual_at, current_at. rewrite one_freq.
  pose proof (truncation q resp b b' R0 i HF HP Hf L (fun k Hk => HR i k Hi Hk) v (q_freq q 1) eq_refl) as T. set (D := sqrt _) in *. set (I1 := current _ (tones _ _ _ (NbInt b) _) _ _ _ _) in *. set (I2 := current _ (tones _ _ _ (NbInt b') _) _ _ _ _) in *.
  set (s := h_vt c 1%nat 1%nat). set (Z := h_zt c 1%nat 1%nat) in *. set (x := v 1%nat 1%nat i) in *.
  replace (s - Z * I2 - x)%C with ((s - Z * I1 - x) + Z * (I1 - I2))%C by ring. eapply Rle_trans; [apply Cmod_triangle|]. apply Rplus_le_compat_l. rewrite Cmod_mult. apply (Rmult_le_compat_l (Cmod Z)) in T; [|apply Cmod_ge_0]. lra.
Qed.
Theorem near_wider v s i : solution besselJ c resp (NbInt b') s -> (i < q_npts q)%nat ->
  (1 - kk) * Cmod (v 1%nat 1%nat i - s 1%nat 1%nat i)%C <= Cmod (residual_at besselJ c resp (NbInt b) v 1 1 i) + 4 * R0 * z * sqrt (1 - captured b (Cmod (v 1%nat 1%nat i) / q_freq q 1)).
Proof.
  intros S Hi. pose proof (near_solution besselJ c resp (NbInt b') kk (one_follows c resp b' R0 HF HP Hf HR) v s i Hi K S) as H. unfold distance in H. rewrite (one_total c HF HP) in H. pose proof (imbalance_wider v i Hi) as W. unfold imbalance at 2 in W. rewrite (one_total c HF HP) in W. lra.
Qed.
End Balance.

(** ** What a run returns *)
Theorem truncation_estimate c resp b b' R0 inv max_it stop vj0 d zj v it s : q_num_f (h_q c) = 1%nat -> q_num_p (h_q c) = 1%nat -> / 10000 < q_freq (h_q c) 1 -> (b <= b')%nat ->
  (forall i (k : Z), (i < q_npts (h_q c))%nat -> (Z.abs k <= Z.of_nat b')%Z -> Cmod (resp (q_vb (h_q c) i + IZR k * q_freq (h_q c) 1)) <= R0) ->
  let z := Cmod (h_zt c 1%nat 1%nat) in 0 <= R0 -> 4 * R0 * z < q_freq (h_q c) 1 ->
  simulates c (NbInt b) -> inverts inv -> (0 <= max_it)%Z -> r_ret (harmonic_balance besselJ inv c resp (NbInt b) max_it stop vj0 d "x" zj) = Ok (RetX v it true) ->
  everywhere (h_q c) (fun f p i => v f p i <> RtoC 0) -> solution besselJ (driven c) resp (NbInt b') s ->
  forall i, (i < q_npts (h_q c))%nat -> (1 - 4 * R0 * z / q_freq (h_q c) 1) * Cmod (v 1%nat 1%nat i - s 1%nat 1%nat i)%C <=
    stop * Cmod (v 1%nat 1%nat i) + 4 * R0 * z * sqrt (1 - captured b (Cmod (v 1%nat 1%nat i) / q_freq (h_q c) 1)).
Proof.
  intros HF HP Hf L HR z P0 HZ HS INV HM R1 NZ SOL i Hi. apply driven_solution in SOL. assert (Z0 : 0 <= z) by apply Cmod_ge_0.
  assert (B := converged_balanced besselJ inv c resp (NbInt b) max_it stop vj0 d zj v it HS HM INV R1 ltac:(intros f p j S I [Z _]; exact (NZ f p j S I Z))). cbv zeta in B. rewrite cct_after in B by apply (sim_parts c (NbInt b) HS).
  assert (K : 0 <= 4 * R0 * z / q_freq (h_q c) 1 < 1).
  { split; [apply Rmult_le_pos; [apply Rmult_le_pos; lra|apply Rlt_le, Rinv_0_lt_compat; lra]|]. apply Rmult_lt_reg_r with (q_freq (h_q c) 1); [lra|]. replace (4 * R0 * z / q_freq (h_q c) 1 * q_freq (h_q c) 1) with (4 * R0 * z) by (field; lra). lra. }
  pose proof (near_wider (clamped c) resp b b' R0 HF HP Hf L HR K v s i SOL Hi) as H. assert (SG : signal (h_q c) 1 1) by (split; rewrite ?HF, ?HP; lia). specialize (B 1%nat 1%nat i SG Hi). cbv beta in B. cbn [h_q h_zt clamped] in H. fold z in H. unfold z in *. lra.
Qed.

(** ** Growing truncations *)
Lemma squares_uniform X eps : 0 <= X -> 0 < eps -> exists N, forall M x, (N <= M)%nat -> Rabs x <= X -> 1 - squares M x < eps.
Proof.
  intros X0 He. set (h := X / 2). set (K := 2 * X * exp (2 * (X / 2) ^ 2)).
  assert (K0 : 0 <= K) by (apply Rmult_le_pos; [lra|left; apply exp_pos]).
  destruct (cv_speed_pow_fact h (Rmin 1 (eps / (K + 1)))) as [N HN]. { apply Rmin_pos; [lra|]. apply Rdiv_lt_0_compat; lra. }
  assert (h0 : 0 <= h) by (unfold h; lra).
  exists N. intros M x HM Hx. apply Rle_lt_trans with (Rabs (squares M x - 1)). { rewrite Rabs_minus_sym. apply Rle_abs. } eapply Rle_lt_trans; [apply squares_near|].
  assert (T : forall k, (N <= k)%nat -> 0 <= h ^ k / INR (fact k) < Rmin 1 (eps / (K + 1))).
  { intros k Hk. assert (G : 0 <= h ^ k / INR (fact k)) by (apply Rdiv_le_0_compat; [now apply pow_le|apply INR_fact_lt_0]). split; [assumption|]. specialize (HN k Hk). unfold R_dist in HN. rewrite Rminus_0_r, Rabs_pos_eq in HN by assumption. exact HN. }
  destruct (T M HM) as [A1 A2]. destruct (T (S M)) as [B1 B2]; [lia|].
  apply Rle_lt_trans with (2 * X * (h ^ (2 * M + 1) / (INR (fact M) * INR (fact (S M))) * exp (2 * (X / 2) ^ 2))).
  { assert (FP : 0 < / (INR (fact M) * INR (fact (S M)))) by (apply Rinv_0_lt_compat, Rmult_lt_0_compat; apply INR_fact_lt_0). pose proof (Rabs_pos x). assert (XA : Rabs X = X) by (apply Rabs_pos_eq; assumption).
    assert (HP := half_pow_le X x (2 * M + 1) ltac:(rewrite XA; exact Hx)). assert (HP2 := half_pow_le X x 2 ltac:(rewrite XA; exact Hx)). rewrite (Rabs_pos_eq (X / 2)) in HP, HP2 by (fold h; assumption). rewrite pow2_abs in HP2.
    assert (PP : 0 <= Rabs (x / 2) ^ (2 * M + 1)) by (apply pow_le, Rabs_pos).
    apply Rmult_le_compat; [lra|apply Rmult_le_pos; [apply Rmult_le_pos; lra|left; apply exp_pos]|lra|]. apply Rmult_le_compat; [apply Rmult_le_pos; lra|left; apply exp_pos|apply Rmult_le_compat_r; [lra|exact HP]|].
    assert (LE : forall a b, a <= b -> exp a <= exp b) by (intros a b [L|L]; [left; now apply exp_increasing|right; now rewrite L]). apply LE. lra. }
  assert (E : 2 * X * (h ^ (2 * M + 1) / (INR (fact M) * INR (fact (S M))) * exp (2 * (X / 2) ^ 2)) = K * (h ^ M / INR (fact M) * (h ^ S M / INR (fact (S M))))).
  { unfold K. replace (2 * M + 1)%nat with (M + S M)%nat by lia. rewrite pow_add. pose proof (INR_fact_neq_0 M). pose proof (INR_fact_neq_0 (S M)). field. split; assumption. }
  rewrite E. assert (M1 := Rmin_l 1 (eps / (K + 1))). assert (M2 := Rmin_r 1 (eps / (K + 1))).
  assert (Q : h ^ M / INR (fact M) * (h ^ S M / INR (fact (S M))) <= eps / (K + 1)). { rewrite <- (Rmult_1_l (eps / (K + 1))). apply Rmult_le_compat; lra. }
  apply Rle_lt_trans with (K * (eps / (K + 1))); [now apply Rmult_le_compat_l|]. apply Rmult_lt_reg_r with (K + 1); [lra|]. replace (K * (eps / (K + 1)) * (K + 1)) with (K * eps) by (field; lra). nra.
Qed.

Section Grow.
Variables (c : hcct) (resp : R -> C) (R0 : R).
Local Notation q := (h_q c).
Local Notation z := (Cmod (h_zt c 1%nat 1%nat)).
Hypothesis HF : q_num_f q = 1%nat.
Hypothesis HP : q_num_p q = 1%nat.
Hypothesis Hf : / 10000 < q_freq q 1.
Hypothesis HR : forall i (k : Z), (i < q_npts q)%nat -> Cmod (resp (q_vb q i + IZR k * q_freq q 1)) <= R0.
Hypothesis P0 : 0 <= R0.
Hypothesis HZ : 4 * R0 * z < q_freq q 1.
Local Notation kk := (4 * R0 * z / q_freq q 1).

Lemma grow_K : 0 <= kk < 1.
Proof.
  assert (Z0 := Cmod_ge_0 (h_zt c 1%nat 1%nat)).
  split; [apply Rmult_le_pos; [apply Rmult_le_pos; lra|apply Rlt_le, Rinv_0_lt_compat; lra]|]. apply Rmult_lt_reg_r with (q_freq q 1); [lra|]. replace (kk * q_freq q 1) with (4 * R0 * z) by (field; lra). lra.
Qed.
Lemma solution_size b s i : solution besselJ c resp (NbInt b) s -> (i < q_npts q)%nat -> Cmod (s 1%nat 1%nat i) <= Cmod (h_vt c 1%nat 1%nat) + 2 * R0 * z.
Proof.
  intros S Hi. assert (SG : signal q 1 1) by (split; rewrite ?HF, ?HP; lia). pose proof (S 1%nat 1%nat i SG Hi) as E. unfold residual_at in E. pose proof (one_current c resp b R0 HF HP Hf (fun i k Hi _ => HR i k Hi) s i Hi) as HI. set (J := current_at _ _ _ _ _ _ _ _) in *.
  assert (ES : s 1%nat 1%nat i = (h_vt c 1%nat 1%nat - h_zt c 1%nat 1%nat * J)%C).
  { transitivity (h_vt c 1%nat 1%nat - h_zt c 1%nat 1%nat * J - (h_vt c 1%nat 1%nat - h_zt c 1%nat 1%nat * J - s 1%nat 1%nat i))%C; [ring|]. rewrite E. ring. }
  rewrite ES. unfold Cminus. eapply Rle_trans; [apply Cmod_triangle|]. rewrite Cmod_opp, Cmod_mult. apply (Rmult_le_compat_l z) in HI; [|apply Cmod_ge_0]. lra.
Qed.
Theorem truncations_agree eps : 0 < eps -> exists N, forall b b' s s', (N <= b)%nat -> (N <= b')%nat -> solution besselJ c resp (NbInt b) s -> solution besselJ c resp (NbInt b') s' ->
  forall i, (i < q_npts q)%nat -> Cmod (s 1%nat 1%nat i - s' 1%nat 1%nat i)%C <= eps.
Proof.
  intros E0. destruct grow_K as [K0 K1]. set (G := 4 * R0 * z + 1). assert (Z0 := Cmod_ge_0 (h_zt c 1%nat 1%nat)). assert (Y0 : 0 <= 4 * R0 * z) by (apply Rmult_le_pos; lra). set (X := (Cmod (h_vt c 1%nat 1%nat) + 2 * R0 * z) / q_freq q 1).
  assert (V0 := Cmod_ge_0 (h_vt c 1%nat 1%nat)). assert (X0 : 0 <= X) by (apply Rmult_le_pos; [lra|apply Rlt_le, Rinv_0_lt_compat; lra]). set (e := (1 - kk) * eps / G). assert (e0 : 0 < e) by (apply Rdiv_lt_0_compat; [apply Rmult_lt_0_compat; lra|unfold G; lra]).
  destruct (squares_uniform X (e ^ 2) X0 ltac:(apply pow_lt; assumption)) as [N HN].
  assert (ONE : forall b b' s s', (N <= b)%nat -> (b <= b')%nat -> solution besselJ c resp (NbInt b) s -> solution besselJ c resp (NbInt b') s' -> forall i, (i < q_npts q)%nat -> Cmod (s 1%nat 1%nat i - s' 1%nat 1%nat i)%C <= eps).
  { intros b b' s s' H1 H2 S S' i Hi. pose proof (near_wider c resp b b' R0 HF HP Hf H2 (fun i k Hi _ => HR i k Hi) (conj K0 K1) s s' i S' Hi) as H.
    assert (SG : signal q 1 1) by (split; rewrite ?HF, ?HP; lia). rewrite (S 1%nat 1%nat i SG Hi), Cmod_0, Rplus_0_l in H. set (x := Cmod (s 1%nat 1%nat i) / q_freq q 1) in *.
    assert (XX : Rabs x <= X). { unfold x. rewrite Rabs_pos_eq; [|apply Rmult_le_pos; [apply Cmod_ge_0|apply Rlt_le, Rinv_0_lt_compat; lra]]. apply Rmult_le_compat_r; [apply Rlt_le, Rinv_0_lt_compat; lra|]. now apply (solution_size b). }
    specialize (HN b x H1 XX). rewrite captured_squares in H. assert (SQ : sqrt (1 - squares b x) <= e). { rewrite <- (sqrt_pow2 e) by lra. apply sqrt_le_1_alt. lra. }
    apply Rmult_le_reg_l with (1 - kk); [lra|]. eapply Rle_trans; [exact H|]. apply Rle_trans with (G * e); [|right; unfold e; field; unfold G; lra]. apply Rmult_le_compat; [assumption|apply sqrt_pos|unfold G; lra|assumption]. }
  exists N. intros b b' s s' H1 H2 S S' i Hi. destruct (Nat.le_ge_cases b b') as [O|O]; [now apply (ONE b b' s s')|]. rewrite <- Cmod_opp. replace (- (s 1%nat 1%nat i - s' 1%nat 1%nat i))%C with (s' 1%nat 1%nat i - s 1%nat 1%nat i)%C by ring. now apply (ONE b' b s' s).
Qed.
(** The balances converge. *)
Theorem truncations_converge : exists s, forall eps, 0 < eps -> exists N, forall b sb, (N <= b)%nat -> solution besselJ c resp (NbInt b) sb ->
  forall i, (i < q_npts q)%nat -> Cmod (sb 1%nat 1%nat i - s 1%nat 1%nat i)%C <= eps.
Proof.
  set (S b := limit besselJ c resp (NbInt b)).
  assert (SOL : forall b, solution besselJ c resp (NbInt b) (S b)). { intros b. apply (limit_solution besselJ c resp (NbInt b) kk grow_K). apply (one_follows c resp b R0 HF HP Hf). intros i k Hi _. now apply HR. }
  set (s := fun (f p i : nat) => (real (Lim_seq (fun b => fst (S b 1%nat 1%nat i))), real (Lim_seq (fun b => snd (S b 1%nat 1%nat i)))) : C). exists s.
  assert (LIM : forall i, (i < q_npts q)%nat -> is_lim_seq (fun b => fst (S b 1%nat 1%nat i)) (fst (s 1%nat 1%nat i)) /\ is_lim_seq (fun b => snd (S b 1%nat 1%nat i)) (snd (s 1%nat 1%nat i))).
  { intros i Hi. assert (CA : forall pr : C -> R, (forall x y, Rabs (pr x - pr y) <= Cmod (x - y)%C) -> is_lim_seq (fun b => pr (S b 1%nat 1%nat i)) (real (Lim_seq (fun b => pr (S b 1%nat 1%nat i))))).
    { intros pr Hpr. apply Lim_seq_correct'. apply ex_lim_seq_cauchy_corr. intros eps. destruct (truncations_agree (eps / 2)) as [N HN]; [destruct eps; cbn; lra|]. exists N. intros n m Hn Hm. eapply Rle_lt_trans; [apply Hpr|]. specialize (HN n m _ _ Hn Hm (SOL n) (SOL m) i Hi). pose proof (cond_pos eps). lra. }
    split; [apply (CA fst)|apply (CA snd)]; intros x y; destruct (part_le (x - y)%C) as [A B]; [exact A|exact B]. }
  intros eps E0. destruct (truncations_agree (eps / 2)) as [N HN]; [lra|]. exists N. intros b sb Hb Sb i Hi.
  destruct (LIM i Hi) as [L1 L2]. apply is_lim_seq_spec in L1. apply is_lim_seq_spec in L2. assert (E4 : 0 < eps / 4) by lra. destruct (L1 (mkposreal _ E4)) as [N1 H1]. destruct (L2 (mkposreal _ E4)) as [N2 H2]. set (m := (N + N1 + N2)%nat).
  specialize (H1 m ltac:(unfold m; lia)). specialize (H2 m ltac:(unfold m; lia)). cbn [pos] in H1, H2. specialize (HN b m sb (S m) Hb ltac:(unfold m; lia) Sb (SOL m) i Hi).
  replace (sb 1%nat 1%nat i - s 1%nat 1%nat i)%C with ((sb 1%nat 1%nat i - S m 1%nat 1%nat i) + (S m 1%nat 1%nat i - s 1%nat 1%nat i))%C by ring. eapply Rle_trans; [apply Cmod_triangle|].
  assert (P : Cmod (S m 1%nat 1%nat i - s 1%nat 1%nat i)%C <= Rabs (fst (S m 1%nat 1%nat i) - fst (s 1%nat 1%nat i)) + Rabs (snd (S m 1%nat 1%nat i) - snd (s 1%nat 1%nat i))) by exact (cmod_parts (S m 1%nat 1%nat i - s 1%nat 1%nat i)%C). lra.
Qed.
End Grow.

(** What two calls return. *)
Theorem truncation_call q resp b b' R0 v rb rb' i : args_ok q (NbInt b) -> q_num_f q = 1%nat -> q_num_p q = 1%nat -> / 10000 < q_freq q 1 -> (b <= b')%nat -> (i < q_npts q)%nat ->
  (forall k : Z, (Z.abs k <= Z.of_nat b')%Z -> Cmod (resp (q_vb q i + IZR k * q_freq q 1)) <= R0) ->
  qtcurrent besselJ v q resp (FList [q_freq q 1]) (NbInt b) None = Ok (QRows rb) -> qtcurrent besselJ v q resp (FList [q_freq q 1]) (NbInt b') None = Ok (QRows rb') ->
  Cmod (nth i (nth 0 rb []) (RtoC 0) - nth i (nth 0 rb' []) (RtoC 0))%C <= 4 * R0 * sqrt (1 - captured b (Cmod (v 1%nat 1%nat i) / q_freq q 1)).
Proof.
  intros A HF HP Hf L Hi HR E E'. assert (A' : args_ok q (NbInt b')) by exact A. apply Proof_Converge.qt_rows in E; [|assumption]. apply Proof_Converge.qt_rows in E'; [|assumption]. subst rb rb'. cbn [map nth]. unfold spec_row. rewrite !Proof_QtApi2.tab_nth by assumption. now apply truncation.
Qed.
