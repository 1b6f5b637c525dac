(** How fast the tunnelling current of one tone can change with the junction voltage: bounds
    that do not depend on the truncation. *)
From Coq Require Import List ZArith Lia Bool Arith Reals Lra.
From Coquelicot Require Import Coquelicot.
From Verif Require Import Base Sums Round Bessel Model_QtCurrent Spec_QtCurrent Spec_QtApi Proof_QtCurrent Proof_QtCurrent2 Proof_QtSym
  Proof_QtApi Proof_QtApi2 Proof_QtWit Proof_Bessel Proof_Bessel2 Proof_Weights Proof_Classical Proof_JacobiAnger Proof_Known Model_HB Spec_HB Spec_HBConv Proof_HBConv Proof_HBLip Proof_HBLip2 Proof_HBWit4.
Import ListNotations.
Local Notation length := List.length.
Local Notation JZ := (besselZ besselJ).
Open Scope R_scope.

(** ** Sums of squares *)
Lemma two_squares t a b : 0 < t -> Rabs a * Rabs b <= / 2 * (t * a ^ 2 + / t * b ^ 2).
Proof.
  intros T. assert (I := Rinv_0_lt_compat t T). rewrite <- (pow2_abs a), <- (pow2_abs b). set (x := Rabs a). set (y := Rabs b).
  assert (E : / 2 * (t * x ^ 2 + / t * y ^ 2) - x * y = / 2 * (/ t * (t * x - y) ^ 2)) by (field; lra).
  assert (P : 0 <= / 2 * (/ t * (t * x - y) ^ 2)) by (apply Rmult_le_pos; [lra|apply Rmult_le_pos; [lra|apply pow2_ge_0]]). lra.
Qed.
Lemma products {A} (l : list A) f g F G : 0 < F -> 0 < G -> rsum l (fun x => f x ^ 2) <= F ^ 2 -> rsum l (fun x => g x ^ 2) <= G ^ 2 -> rsum l (fun x => Rabs (f x) * Rabs (g x)) <= F * G.
Proof.
  intros F0 G0 HF HG. assert (T : 0 < G / F) by (apply Rdiv_lt_0_compat; assumption).
  apply Rle_trans with (rsum l (fun x => / 2 * (G / F * f x ^ 2 + / (G / F) * g x ^ 2))); [apply rsum_le; intros; now apply two_squares|].
  rewrite rsum_scal, rsum_plus, !rsum_scal. assert (I := Rinv_0_lt_compat _ T).
  assert (A1 : G / F * rsum l (fun x => f x ^ 2) <= G / F * F ^ 2) by (apply Rmult_le_compat_l; lra).
  assert (A2 : / (G / F) * rsum l (fun x => g x ^ 2) <= / (G / F) * G ^ 2) by (apply Rmult_le_compat_l; lra).
  replace (G / F * F ^ 2) with (F * G) in A1 by (field; lra). replace (/ (G / F) * G ^ 2) with (F * G) in A2 by (field; lra). lra.
Qed.

(** ** The Bessel functions of all orders together *)
Lemma slopes b x : rsum (sym b) (fun n => ((JZ (n - 1) x - JZ (n + 1) x) / 2) ^ 2) <= 1.
Proof.
  apply Rle_trans with (rsum (sym b) (fun n => / 2 * (JZ (n + -1) x ^ 2 + JZ (n + 1) x ^ 2))).
  - apply rsum_le. intros n _. replace (n - 1)%Z with (n + -1)%Z by lia. set (u := JZ (n + -1) x). set (v := JZ (n + 1) x). pose proof (pow2_ge_0 (u + v)). nra.
  - rewrite rsum_scal, rsum_plus. pose proof (shifted_squares b (-1) x). pose proof (shifted_squares b 1 x). lra.
Qed.
Lemma square_lip b x y : rsum (sym b) (fun n => (JZ n x - JZ n y) ^ 2) <= (x - y) ^ 2.
Proof.
  set (c := fun n => JZ n x - JZ n y). set (N := rsum (sym b) (fun n => c n ^ 2)).
  set (g := fun t => rsum (sym b) (fun n => c n * JZ n t)). set (dg := fun t => rsum (sym b) (fun n => c n * ((JZ (n - 1) t - JZ (n + 1) t) / 2))).
  assert (D : forall t, is_derive g t (dg t)). { intros t. apply (derive_rsum (sym b) (fun n t => c n * JZ n t)). intros n. apply is_derive_scal. apply JZ_derive. }
  destruct (MVT_gen g y x dg) as [t [_ E]].
  { intros t _. apply D. } { intros t _. apply continuity_pt_filterlim, (ex_derive_continuous g). eexists. apply D. }
  assert (EN : N = g x - g y). { unfold g, Rminus. replace (- rsum (sym b) (fun n => c n * JZ n y)) with (-1 * rsum (sym b) (fun n => c n * JZ n y)) by ring. rewrite <- rsum_scal, <- rsum_plus. apply rsum_ext. intros n _. unfold c. ring. }
  change (N <= (x - y) ^ 2). rewrite EN, E. unfold dg. rewrite Rmult_comm, <- rsum_scal.
  assert (B : rsum (sym b) (fun n => (x - y) * (c n * ((JZ (n - 1) t - JZ (n + 1) t) / 2))) <= / 2 * (N + (x - y) ^ 2)).
  { apply Rle_trans with (rsum (sym b) (fun n => / 2 * (c n ^ 2 + (x - y) ^ 2 * ((JZ (n - 1) t - JZ (n + 1) t) / 2) ^ 2))).
    - apply rsum_le. intros n _. set (d := (JZ (n - 1) t - JZ (n + 1) t) / 2). pose proof (pow2_ge_0 (c n - (x - y) * d)). nra.
    - rewrite rsum_scal, rsum_plus, rsum_scal. fold N. apply Rmult_le_compat_l; [lra|]. apply Rplus_le_compat_l. rewrite <- (Rmult_1_r ((x - y) ^ 2)) at 2. apply Rmult_le_compat_l; [apply pow2_ge_0|apply slopes]. }
  rewrite EN, E in B. unfold dg in B. rewrite (Rmult_comm (rsum _ _) (x - y)), <- rsum_scal in B. lra.
Qed.

Lemma order_0 k : IZR k ^ 2 * Rabs (JZ k 0) = 0.
Proof.
  destruct (besselZ_cases k) as [n [s [Hs [Hk E]]]]. rewrite E, Rabs_mult. pose proof (J_order n 0) as O. rewrite Rabs_R0 in O. assert (N := pos_INR n). assert (P := Rabs_pos (besselJ n 0)).
  assert (Z : INR n * Rabs (besselJ n 0) = 0) by (apply Rle_antisym; [assumption|apply Rmult_le_pos; assumption]).
  replace (IZR k ^ 2) with (INR n ^ 2). { transitivity (INR n * (Rabs s * (INR n * Rabs (besselJ n 0)))); [ring|rewrite Z; ring]. }
  rewrite <- (pow2_abs (IZR k)), <- abs_IZR, Hk, <- INR_IZR_INZ. reflexivity.
Qed.
Lemma cross b x y : 0 <= x -> 0 <= y -> rsum (sym b) (fun k => IZR k ^ 2 * (Rabs (JZ k x) * Rabs (JZ k y))) <= / 2 * (x * y).
Proof.
  intros X Y. assert (Z : forall f : Z -> R, (forall k, f k = 0) -> rsum (sym b) f = 0). { intros f H. rewrite (rsum_ext _ _ (fun _ => 0 * 0)) by (intros; rewrite H; ring). rewrite rsum_scal. ring. }
  destruct X as [X|<-]; [|rewrite Z; [lra|intros k; rewrite <- Rmult_assoc, order_0; ring]].
  destruct Y as [Y|<-]; [|rewrite Z; [lra|intros k; rewrite (Rmult_comm (Rabs (JZ k x))), <- Rmult_assoc, order_0; ring]].
  assert (T : 0 < y / x) by (apply Rdiv_lt_0_compat; assumption). assert (I := Rinv_0_lt_compat _ T).
  apply Rle_trans with (rsum (sym b) (fun k => / 2 * (y / x * (IZR k ^ 2 * JZ k x ^ 2) + / (y / x) * (IZR k ^ 2 * JZ k y ^ 2)))).
  - apply rsum_le. intros k _. pose proof (two_squares _ (JZ k x) (JZ k y) T) as H. apply (Rmult_le_compat_l (IZR k ^ 2)) in H; [|apply pow2_ge_0]. lra.
  - rewrite rsum_scal, rsum_plus, !rsum_scal, !momentsZ'. pose proof (moments_le b x) as M1. pose proof (moments_le b y) as M2. apply (Rmult_le_compat_l (y / x)) in M1; [|lra]. apply (Rmult_le_compat_l (/ (y / x))) in M2; [|lra].
    replace (y / x * (x ^ 2 / 2)) with (x * y / 2) in M1 by (field; lra). replace (/ (y / x) * (y ^ 2 / 2)) with (x * y / 2) in M2 by (field; lra). lra.
Qed.
Lemma cos_Z k x : 1 - cos (IZR k * x) <= IZR k ^ 2 * (1 - cos x).
Proof.
  replace (cos (IZR k * x)) with (cos (INR (Z.abs_nat k) * x)); [replace (IZR k ^ 2) with (INR (Z.abs_nat k) ^ 2); [apply cos_nat|]|].
  - rewrite <- (pow2_abs (IZR k)), <- abs_IZR, INR_IZR_INZ. now rewrite Zabs2Nat.id_abs.
  - rewrite INR_IZR_INZ, Zabs2Nat.id_abs. destruct (Z.abs_eq_or_opp k) as [-> | ->]; [reflexivity|]. rewrite opp_IZR, <- cos_neg. f_equal. ring.
Qed.

(** ** The coefficients of a tone, all together *)
Lemma coefs_lip b x y phi psi : 0 <= x -> 0 <= y ->
  rsum (sym b) (fun k => Cmod (jacobi_anger besselJ x phi k - jacobi_anger besselJ y psi k)%C ^ 2) <= Cmod (RtoC x * cis phi - RtoC y * cis psi)%C ^ 2.
Proof.
  intros X Y. rewrite polar_sq. set (u := 1 - cos (phi - psi)). assert (U : 0 <= u) by (unfold u; pose proof (COS_bound (phi - psi)); lra).
  apply Rle_trans with (rsum (sym b) (fun k => (JZ k x - JZ k y) ^ 2 + 2 * u * (IZR k ^ 2 * (Rabs (JZ k x) * Rabs (JZ k y))))).
  - apply rsum_le. intros k _. unfold jacobi_anger. rewrite polar_sq. apply Rplus_le_compat_l. replace (- (IZR k * phi) - - (IZR k * psi)) with (- (IZR k * (phi - psi))) by ring. rewrite cos_neg.
    pose proof (cos_Z k (phi - psi)) as CN. fold u in CN. pose proof (COS_bound (IZR k * (phi - psi))) as CB. assert (AB : JZ k x * JZ k y <= Rabs (JZ k x) * Rabs (JZ k y)) by (rewrite <- Rabs_mult; apply Rle_abs).
    assert (P : 0 <= Rabs (JZ k x) * Rabs (JZ k y)) by (apply Rmult_le_pos; apply Rabs_pos). set (w := 1 - cos (IZR k * (phi - psi))) in *. assert (W : 0 <= w) by (unfold w; lra).
    apply (Rmult_le_compat_r w) in AB; [|assumption]. apply (Rmult_le_compat_l _ _ _ P) in CN. lra.
  - rewrite rsum_plus, rsum_scal. pose proof (square_lip b x y). pose proof (cross b x y X Y) as H1. apply (Rmult_le_compat_l (2 * u)) in H1; [|lra]. assert (0 <= x * y * u) by (repeat apply Rmult_le_pos; assumption). lra.
Qed.
Lemma drives_lip b v w a : 0 < a ->
  rsum (sym b) (fun k => Cmod (jacobi_anger besselJ (Cmod v / a) (angle v) k - jacobi_anger besselJ (Cmod w / a) (angle w) k)%C ^ 2) <= (Cmod (v - w)%C / a) ^ 2.
Proof.
  intros A. assert (I := Rinv_0_lt_compat a A). eapply Rle_trans; [apply coefs_lip; apply Rmult_le_pos; try apply Cmod_ge_0; lra|]. right. f_equal.
  replace (RtoC (Cmod v / a) * cis (angle v) - RtoC (Cmod w / a) * cis (angle w))%C with ((v - w) * RtoC (/ a))%C; [rewrite Cmod_mult, Cmod_R, Rabs_pos_eq by lra; reflexivity|].
  rewrite (angle_polar v) at 1. rewrite (angle_polar w) at 1. unfold Rdiv. rewrite !RtoC_mult. ring.
Qed.
Lemma coefs_1 b x phi : rsum (sym b) (fun k => Cmod (jacobi_anger besselJ x phi k) ^ 2) <= 1.
Proof.
  rewrite (rsum_ext _ _ (fun k => JZ k x ^ 2)); [rewrite squaresZ; apply squares_le_1|]. intros k _. unfold jacobi_anger. now rewrite Cmod_mult, cis_mod, Rmult_1_r, Cmod_R, pow2_abs.
Qed.
(** The same sums with the indices moved along, and cut off at the ends. *)
Lemma moved b d (g : Z -> R) m : (forall k, 0 <= g k) -> (forall n, rsum (sym n) g <= m) -> rsum (sym b) (fun k => g (k + d)%Z) <= m.
Proof.
  intros G H. rewrite <- (rsum_shift b d g). eapply Rle_trans; [|apply (H (b + Z.abs_nat d)%nat)]. apply rsum_sub; [|intros y Y|exact G].
  - apply FinFun.Injective_map_NoDup; [intros u v; lia|apply sym_NoDup].
  - apply in_map_iff in Y as (n & <- & Hn). apply in_sym in Hn. apply in_sym. lia.
Qed.
Lemma cut_small b f k : Cmod (cut b f k) <= Cmod (f k).
Proof. unfold cut. destruct (_ <=? _)%Z; [apply Rle_refl|rewrite Cmod_0; apply Cmod_ge_0]. Qed.
Lemma cut_minus b f g k : (cut b f k - cut b g k)%C = cut b (fun k => f k - g k)%C k.
Proof. unfold cut. destruct (_ <=? _)%Z; [reflexivity|ring]. Qed.
Lemma sq_le x y : 0 <= x -> x <= y -> x ^ 2 <= y ^ 2.
Proof. intros. apply pow_incr. now split. Qed.

(** ** The sums of a tone *)
Definition coef (v : C) (a : R) (k : Z) : C := jacobi_anger besselJ (Cmod v / a) (angle v) k.
Lemma conj_mod z : Cmod (Cconj z) = Cmod z.
Proof. unfold Cmod, Cconj; cbn [fst snd]; f_equal; ring. Qed.
Lemma conj_minus x y : (Cconj x - Cconj y)%C = Cconj (x - y)%C.
Proof. unfold Cconj, Cminus, Cplus, Copp; cbn [fst snd]. f_equal; ring. Qed.
Lemma cuts_1 b n v a d : rsum (sym b) (fun k => Cmod (cut n (cut n (coef v a)) (k + d)%Z) ^ 2) <= 1 ^ 2.
Proof.
  apply Rle_trans with (rsum (sym b) (fun k => Cmod (coef v a (k + d)) ^ 2)).
  - apply rsum_le. intros k _. apply sq_le; [apply Cmod_ge_0|]. eapply Rle_trans; apply cut_small.
  - rewrite pow1. apply (moved b d (fun k => Cmod (coef v a k) ^ 2)); [intros; apply pow2_ge_0|]. intros m. apply coefs_1.
Qed.
Lemma cuts_lip b n v w a d : 0 < a -> rsum (sym b) (fun k => Cmod (cut n (cut n (coef v a)) (k + d)%Z - cut n (cut n (coef w a)) (k + d)%Z)%C ^ 2) <= (Cmod (v - w)%C / a) ^ 2.
Proof.
  intros A. apply Rle_trans with (rsum (sym b) (fun k => Cmod (coef v a (k + d) - coef w a (k + d))%C ^ 2)).
  - apply rsum_le. intros k _. apply sq_le; [apply Cmod_ge_0|]. rewrite !cut_cut, cut_minus. apply (cut_small n (fun k => coef v a k - coef w a k)%C).
  - apply (moved b d (fun k => Cmod (coef v a k - coef w a k)%C ^ 2)); [intros; apply pow2_ge_0|]. intros m. now apply drives_lip.
Qed.
Lemma abs_cmod z : Rabs (Cmod z) = Cmod z.
Proof. apply Rabs_pos_eq, Cmod_ge_0. Qed.
Lemma cut_cut n f k : cut n (cut n f) k = cut n f k.
Proof. unfold cut. destruct (_ <=? _)%Z; reflexivity. Qed.
Definition pair_sum b (f g : Z -> C) (r : Z -> C) : C := csum (sym b) (fun k => f k * Cconj (g k) * r k)%C.
Lemma pair_1 b f g r R0 : 0 <= R0 -> (forall k, In k (sym b) -> Cmod (r k) <= R0) -> rsum (sym b) (fun k => Cmod (f k) ^ 2) <= 1 ^ 2 -> rsum (sym b) (fun k => Cmod (g k) ^ 2) <= 1 ^ 2 -> Cmod (pair_sum b f g r) <= R0.
Proof.
  intros P0 HR HF HG. eapply Rle_trans; [apply Cmod_csum|]. apply Rle_trans with (rsum (sym b) (fun k => R0 * (Rabs (Cmod (f k)) * Rabs (Cmod (g k))))).
  - apply rsum_le. intros k Hk. rewrite !Cmod_mult, conj_mod, !abs_cmod, (Rmult_comm R0). apply Rmult_le_compat_l; [apply Rmult_le_pos; apply Cmod_ge_0|now apply HR].
  - rewrite rsum_scal. assert (H := products (sym b) (fun k => Cmod (f k)) (fun k => Cmod (g k)) 1 1 ltac:(lra) ltac:(lra) HF HG). cbv beta in H. apply (Rmult_le_compat_l R0) in H; [|assumption]. lra.
Qed.
Lemma pair_lip b f g f' g' r R0 D : 0 <= R0 -> 0 < D -> (forall k, In k (sym b) -> Cmod (r k) <= R0) ->
  rsum (sym b) (fun k => Cmod (g k) ^ 2) <= 1 ^ 2 -> rsum (sym b) (fun k => Cmod (f' k) ^ 2) <= 1 ^ 2 ->
  rsum (sym b) (fun k => Cmod (f k - f' k)%C ^ 2) <= D ^ 2 -> rsum (sym b) (fun k => Cmod (g k - g' k)%C ^ 2) <= D ^ 2 ->
  Cmod (pair_sum b f g r - pair_sum b f' g' r)%C <= 2 * R0 * D.
Proof.
  intros P0 D0 HR HG HF HDF HDG. unfold pair_sum, Cminus. rewrite <- csum_opp, <- csum_plus. eapply Rle_trans; [apply Cmod_csum|].
  apply Rle_trans with (rsum (sym b) (fun k => R0 * (Rabs (Cmod (f k - f' k)%C) * Rabs (Cmod (g k)) + Rabs (Cmod (f' k)) * Rabs (Cmod (g k - g' k)%C)))).
  - apply rsum_le. intros k Hk. rewrite !abs_cmod.
    replace (f k * Cconj (g k) * r k + - (f' k * Cconj (g' k) * r k))%C with ((f k * Cconj (g k) - f' k * Cconj (g' k)) * r k)%C by ring. rewrite Cmod_mult, (Rmult_comm R0).
    apply Rmult_le_compat; [apply Cmod_ge_0|apply Cmod_ge_0| |now apply HR]. eapply Rle_trans; [apply mult_diff|]. rewrite conj_minus, !conj_mod. lra.
  - rewrite rsum_scal, rsum_plus. assert (H1 := products (sym b) (fun k => Cmod (f k - f' k)%C) (fun k => Cmod (g k)) D 1 D0 ltac:(lra) HDF HG). assert (H2 := products (sym b) (fun k => Cmod (f' k)) (fun k => Cmod (g k - g' k)%C) 1 D ltac:(lra) D0 HF HDG). cbv beta in H1, H2.
    rewrite (Rmult_comm 2), Rmult_assoc. apply Rmult_le_compat_l; [assumption|]. lra.
Qed.

(** ** The current of one tone *)
Lemma coeff_parts ts a rk : forallb (fun x => x =? 0)%Z a = false -> coeff ts a rk = (- Ci * rs_sum ts a rk + Ci * Cconj (rs_sum ts (map Z.opp a) rk))%C.
Proof. intros E. unfold coeff. rewrite E. destruct (rs_sum ts a rk) as [x y]. destruct (rs_sum ts (map Z.opp a) rk) as [u v]. unfold Ci, Re, Im, Cmult, Cplus, Copp, Cconj. cbn [fst snd]. apply injective_projections; cbn [fst snd]; ring. Qed.

Section OneTone.
Variables (q : qcct) (resp : R -> C) (num_b : numb) (R0 : R).
Hypothesis HF : q_num_f q = 1%nat.
Hypothesis HP : q_num_p q = 1%nat.
Hypothesis Hf : / 10000 < q_freq q 1.
Local Notation a := (q_freq q 1).
Local Notation b := (nth 0 (nbtuple num_b 1) O).
Variable i : nat.
Hypothesis HR : forall k : Z, (Z.abs k <= Z.of_nat b)%Z -> Cmod (resp (q_vb q i + IZR k * a)) <= R0.
Local Notation r := (fun k => resp (q_vb q i + IZR k * a)).

Lemma one_tone v : tones besselJ v q num_b i = [Tone b (cut b (coef (v 1%nat 1%nat i) (1 * a)))].
Proof. unfold tones. rewrite HF, HP. reflexivity. Qed.
Lemma one_R0 : 0 <= R0.
Proof. eapply Rle_trans; [apply Cmod_ge_0|apply (HR 0%Z)]. lia. Qed.
Lemma one_r k : In k (sym b) -> Cmod (r k) <= R0.
Proof. intros H. apply in_sym in H. apply HR. lia. Qed.
Lemma one_freqs : freqs q = [a].
Proof. unfold freqs. rewrite HF. reflexivity. Qed.
Lemma one_rs f d : rs_sum [Tone b f] [d] (fun ks => resp (q_vb q i + dot ks [a])) = pair_sum b f (fun k => cut b f (k + d)%Z) r.
Proof.
  cbn [rs_sum t_b t_C]. unfold pair_sum. apply csum_ext. intros k _. cbn [dot]. f_equal. f_equal. ring.
Qed.
Lemma one_ac v w : round4 w = round4 a -> current (q_num_p q) (tones besselJ v q num_b i) (freqs q) (q_vb q i) resp w =
  (let f := cut b (coef (v 1%nat 1%nat i) (1 * a)) in - Ci * pair_sum b f (fun k => cut b f (k + 1)%Z) r + Ci * Cconj (pair_sum b f (fun k => cut b f (k + -1)%Z) r))%C.
Proof.
  intros Hw. rewrite one_tone, one_freqs, HP. rewrite ac_one_tone_any by assumption. rewrite coeff_parts by reflexivity. cbn [map Z.opp]. rewrite !one_rs. reflexivity.
Qed.
Lemma uncut v : rsum (sym b) (fun k => Cmod (cut b (coef v (1 * a)) k) ^ 2) <= 1 ^ 2.
Proof. rewrite <- (rsum_ext _ (fun k => Cmod (cut b (cut b (coef v (1 * a))) (k + 0)%Z) ^ 2)); [apply cuts_1|]. intros k _. now rewrite Z.add_0_r, cut_cut. Qed.
Lemma uncut_lip v w : rsum (sym b) (fun k => Cmod (cut b (coef v (1 * a)) k - cut b (coef w (1 * a)) k)%C ^ 2) <= (Cmod (v - w)%C / (1 * a)) ^ 2.
Proof. rewrite <- (rsum_ext _ (fun k => Cmod (cut b (cut b (coef v (1 * a))) (k + 0)%Z - cut b (cut b (coef w (1 * a))) (k + 0)%Z)%C ^ 2)); [apply cuts_lip; lra|]. intros k _. now rewrite Z.add_0_r, !cut_cut. Qed.

Lemma Ci_mod : Cmod Ci = 1.
Proof. unfold Cmod, Ci. cbn [fst snd]. replace (0 ^ 2 + 1 ^ 2) with 1 by ring. apply sqrt_1. Qed.
Theorem one_ac_le v w : round4 w = round4 a -> Cmod (current (q_num_p q) (tones besselJ v q num_b i) (freqs q) (q_vb q i) resp w) <= 2 * R0.
Proof.
  intros Hw. rewrite one_ac by assumption. cbv zeta. eapply Rle_trans; [apply Cmod_triangle|]. rewrite !Cmod_mult, Cmod_opp, Ci_mod, conj_mod, !(Rmult_1_l (Cmod _)).
  replace (2 * R0) with (R0 + R0) by ring. apply Rplus_le_compat; (apply pair_1; [apply one_R0|apply one_r|apply uncut|apply cuts_1]).
Qed.
Theorem one_ac_lip v v' w : round4 w = round4 a -> Cmod (current (q_num_p q) (tones besselJ v q num_b i) (freqs q) (q_vb q i) resp w - current (q_num_p q) (tones besselJ v' q num_b i) (freqs q) (q_vb q i) resp w)%C
  <= 4 * R0 / a * Cmod (v 1%nat 1%nat i - v' 1%nat 1%nat i)%C.
Proof.
  intros Hw. rewrite !one_ac by assumption. cbv zeta. set (x := v 1%nat 1%nat i). set (y := v' 1%nat 1%nat i).
  destruct (Rle_lt_or_eq_dec _ _ (Cmod_ge_0 (x - y)%C)) as [D|D].
  - assert (D0 : 0 < Cmod (x - y)%C / (1 * a)) by (apply Rdiv_lt_0_compat; lra).
    assert (P := fun d => pair_lip b _ _ _ _ r R0 _ one_R0 D0 one_r (cuts_1 b b x (1 * a) d) (uncut y) (uncut_lip x y) (cuts_lip b b x y (1 * a) d ltac:(lra))).
    pose proof (P 1%Z) as P1. pose proof (P (-1)%Z) as P2. clear P.
    match type of P1 with Cmod (?X - ?X')%C <= _ => match type of P2 with Cmod (?Y - ?Y')%C <= _ => set (A := X) in *; set (A' := X') in *; set (B := Y) in *; set (B' := Y') in * end end.
    replace (- Ci * A + Ci * Cconj B - (- Ci * A' + Ci * Cconj B'))%C with (- Ci * (A - A') + Ci * (Cconj B - Cconj B'))%C by ring.
    eapply Rle_trans; [apply Cmod_triangle|]. rewrite conj_minus, !Cmod_mult, Cmod_opp, Ci_mod, conj_mod, !(Rmult_1_l (Cmod _)).
    replace (4 * R0 / a * Cmod (x - y)%C) with (2 * R0 * (Cmod (x - y)%C / (1 * a)) + 2 * R0 * (Cmod (x - y)%C / (1 * a))) by (field; lra). lra.
  - symmetry in D. rewrite D. apply Cmod_eq_0 in D. assert (E : x = y) by (transitivity (x - y + y)%C; [ring|rewrite D; ring]). rewrite E.
    match goal with |- Cmod (?X - ?X)%C <= _ => replace (X - X)%C with (RtoC 0) by ring end. rewrite Cmod_0. lra.
Qed.
(** The direct current. *)
Lemma one_dc v w : round4 w = 0 -> current (q_num_p q) (tones besselJ v q num_b i) (freqs q) (q_vb q i) resp w = RtoC (Im (pair_sum b (cut b (coef (v 1%nat 1%nat i) (1 * a))) (cut b (coef (v 1%nat 1%nat i) (1 * a))) r)).
Proof.
  intros Hw. rewrite one_tone, one_freqs. rewrite dc_one_tone by assumption. unfold pair_sum. rewrite Im_rsum. f_equal. apply rsum_ext. intros k _. rewrite <- Cmod2.
  destruct (cut b _ k) as [x y], (resp (q_vb q i + IZR k * a)) as [u z]. unfold Cmult, Cconj, Im; simpl. ring.
Qed.
Theorem one_dc_le v w : round4 w = 0 -> Cmod (current (q_num_p q) (tones besselJ v q num_b i) (freqs q) (q_vb q i) resp w) <= R0.
Proof.
  intros Hw. rewrite one_dc by assumption. rewrite Cmod_R. eapply Rle_trans; [apply part_le|]. apply pair_1; [apply one_R0|apply one_r|apply uncut|apply uncut].
Qed.
Theorem one_dc_lip v v' w : round4 w = 0 -> Cmod (current (q_num_p q) (tones besselJ v q num_b i) (freqs q) (q_vb q i) resp w - current (q_num_p q) (tones besselJ v' q num_b i) (freqs q) (q_vb q i) resp w)%C
  <= 2 * R0 / a * Cmod (v 1%nat 1%nat i - v' 1%nat 1%nat i)%C.
Proof.
  intros Hw. rewrite !one_dc by assumption. set (x := v 1%nat 1%nat i). set (y := v' 1%nat 1%nat i).
  destruct (Rle_lt_or_eq_dec _ _ (Cmod_ge_0 (x - y)%C)) as [D|D].
  - assert (D0 : 0 < Cmod (x - y)%C / (1 * a)) by (apply Rdiv_lt_0_compat; lra).
    pose proof (pair_lip b _ _ _ _ r R0 _ one_R0 D0 one_r (uncut x) (uncut y) (uncut_lip x y) (uncut_lip x y)) as P.
    rewrite <- RtoC_minus, Cmod_R. replace (4 * R0 / a) with (2 * (2 * R0 / a)) by (field; lra). eapply Rle_trans; [|eapply Rle_trans; [exact P|right; field; lra]]. apply (proj2 (part_le (_ - _)%C)).
  - symmetry in D. rewrite D. apply Cmod_eq_0 in D. assert (E : x = y) by (transitivity (x - y + y)%C; [ring|rewrite D; ring]). rewrite E.
    match goal with |- Cmod (?X - ?X)%C <= _ => replace (X - X)%C with (RtoC 0) by ring end. rewrite Cmod_0. lra.
Qed.
End OneTone.

(** ** What a call returns *)
Theorem one_call q resp b R0 v w rv rw i : args_ok q (NbInt b) -> q_num_f q = 1%nat -> q_num_p q = 1%nat -> / 10000 < q_freq q 1 -> (i < q_npts q)%nat ->
  (forall k : Z, (Z.abs k <= Z.of_nat b)%Z -> Cmod (resp (q_vb q i + IZR k * q_freq q 1)) <= R0) ->
  qtcurrent besselJ v q resp (FList [0; q_freq q 1]) (NbInt b) None = Ok (QRows rv) -> qtcurrent besselJ w q resp (FList [0; q_freq q 1]) (NbInt b) None = Ok (QRows rw) ->
  let dc r := nth i (nth 0 r []) (RtoC 0) in let ac r := nth i (nth 1 r []) (RtoC 0) in let d := Cmod (v 1%nat 1%nat i - w 1%nat 1%nat i)%C / q_freq q 1 in
  Cmod (dc rv) <= R0 /\ Cmod (ac rv) <= 2 * R0 /\ Cmod (dc rv - dc rw)%C <= 2 * R0 * d /\ Cmod (ac rv - ac rw)%C <= 4 * R0 * d.
Proof.
  intros H HF HP Hf Hi HR Ev Ew. cbv zeta. rewrite (qtcurrent_spec besselJ v q resp (FList _) (NbInt b) None H I) in Ev. rewrite (qtcurrent_spec besselJ w q resp (FList _) (NbInt b) None H I) in Ew. cbn [flist map] in Ev, Ew.
  assert (E1 : rv = [spec_row besselJ v q resp (NbInt b) 0; spec_row besselJ v q resp (NbInt b) (q_freq q 1)]) by congruence. assert (E2 : rw = [spec_row besselJ w q resp (NbInt b) 0; spec_row besselJ w q resp (NbInt b) (q_freq q 1)]) by congruence. subst rv rw.
  cbn [nth]. unfold spec_row. rewrite !tab_nth by assumption. split; [|split; [|split]].
  - apply (one_dc_le q resp (NbInt b) R0 HF HP Hf i HR). apply round4_0.
  - now apply (one_ac_le q resp (NbInt b) R0 HF HP Hf i HR).
  - eapply Rle_trans; [apply (one_dc_lip q resp (NbInt b) R0 HF HP Hf i HR); apply round4_0|]. right. field. lra.
  - eapply Rle_trans; [now apply (one_ac_lip q resp (NbInt b) R0 HF HP Hf i HR)|]. right. field. lra.
Qed.
