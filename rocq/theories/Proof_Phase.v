(** The phase-factor coefficients are the Fourier coefficients of the phase factor. *)
From Coq Require Import List ZArith Bool Reals Lia Lra Psatz.
From Coquelicot Require Import Coquelicot.
From Verif Require Import Base Sums Round Bessel Model_QtCurrent Spec_QtCurrent Spec_QtApi Spec_Power Spec_Phase Proof_QtCurrent Proof_QtCurrent2 Proof_QtWit Proof_QtSym Proof_QtApi Proof_Bessel Proof_Weights Proof_Decay Proof_Converge Proof_JacobiAnger.
Import ListNotations.
Open Scope R_scope.
Local Notation length := List.length.
Local Notation Forall := List.Forall.

Definition trig (n : nat) (c : Z -> C) (x : R) : C := csum (sym n) (fun k => Cmult (c k) (cis (IZR k * x))).
Lemma trig_tail n W c K q x : 0 < q <= 1 -> 0 <= K -> (forall k, Cmod (c k) <= K * pw (q * / 2) k) -> (n <= W)%nat -> Cmod (Cminus (trig W c x) (trig n c x)) <= 3 * K * q ^ n.
Proof.
  intros Q K0 H L. unfold trig. rewrite <- (csum_cut_sym W n) by assumption. unfold Cminus. rewrite <- csum_opp, <- csum_plus. eapply Rle_trans; [apply Cmod_csum|].
  apply Rle_trans with (rsum (sym W) (fun k => K * q ^ n * pw (/ 2) k)).
  - apply rsum_le. intros k _. assert (QN := pow_lt q n (proj1 Q)). assert (HP : 0 < pw (/ 2) k) by (apply pw_pos; lra). destruct (Z_le_gt_dec (Z.abs k) (Z.of_nat n)) as [S|S].
    + rewrite cut_in by lia. rewrite Cplus_opp_r, Cmod_0. apply Rmult_le_pos; [nra|lra].
    + rewrite cut_out by lia. replace (Cplus (Cmult (c k) (cis (IZR k * x))) (Copp (RtoC 0))) with (Cmult (c k) (cis (IZR k * x))) by ring. rewrite Cmod_mult, Cmod_cis, Rmult_1_r. eapply Rle_trans; [apply H|]. rewrite pw_mult. assert (F := pw_far q k n Q ltac:(lia)). rewrite <- (Rmult_assoc K). apply Rmult_le_compat_r; [lra|]. now apply Rmult_le_compat_l.
  - rewrite rsum_scal. assert (S3 := half_sum_le W). assert (0 <= K * q ^ n) by (apply Rmult_le_pos; [assumption|apply pow_le; lra]). nra.
Qed.
Lemma trig_close n W W' c K q x : 0 < q <= 1 -> 0 <= K -> (forall k, Cmod (c k) <= K * pw (q * / 2) k) -> (n <= W)%nat -> (n <= W')%nat -> Cmod (Cminus (trig W c x) (trig W' c x)) <= 3 * K * q ^ n.
Proof.
  intros Q K0 H L L'. assert (M : forall a b, (n <= a)%nat -> (a <= b)%nat -> Cmod (Cminus (trig b c x) (trig a c x)) <= 3 * K * q ^ n).
  { intros a b A B. eapply Rle_trans; [apply (trig_tail a b c K q x Q K0 H B)|]. apply Rmult_le_compat_l; [lra|]. now apply pow_decr. }
  destruct (Nat.le_ge_cases W' W) as [X|X]; [now apply M|]. replace (Cminus (trig W c x) (trig W' c x)) with (Copp (Cminus (trig W' c x) (trig W c x))) by ring. rewrite Cmod_opp. now apply M.
Qed.
(** A wide enough window sees the whole product. *)
Lemma trig_product B b A p N x : (1 <= p)%nat -> (B + S p * b <= N)%nat ->
  trig N (phase_factor B b A (S p)) x = Cmult (trig B (phase_factor B b A p) x) (trig b (A (S p)) (INR (S p) * x)).
Proof.
  intros P L. unfold trig. rewrite (csum_ext (sym N) _ (fun k => csum (sym b) (fun l => Cmult (Cmult (cut B (phase_factor B b A p) (k - Z.of_nat (S p) * l)) (cis (IZR (k - Z.of_nat (S p) * l) * x))) (Cmult (A (S p) l) (cis (IZR l * (INR (S p) * x))))))).
  2:{ intros k _. rewrite phase_factor_S by lia. rewrite <- csum_scal_r. apply csum_ext. intros l _. replace (IZR k * x) with (IZR (k - Z.of_nat (S p) * l) * x + IZR l * (INR (S p) * x)). { rewrite cis_add. ring. } rewrite minus_IZR, mult_IZR, INR_IZR_INZ. ring. }
  rewrite csum_swap. rewrite <- csum_scal_l. apply csum_ext. intros l Hl. apply in_sym in Hl. rewrite csum_scal_r. f_equal.
  set (h := fun m => Cmult (cut B (phase_factor B b A p) m) (cis (IZR m * x))). change (csum (sym N) (fun k => h (k - Z.of_nat (S p) * l)%Z) = csum (sym B) (fun k => Cmult (phase_factor B b A p k) (cis (IZR k * x)))).
  rewrite <- (csum_map (fun k => (k - Z.of_nat (S p) * l)%Z)). transitivity (csum (sym B) h).
  - apply csum_support.
    + apply FinFun.Injective_map_NoDup; [intros a a' E; lia|apply sym_NoDup].
    + apply sym_NoDup.
    + intros m Hm. assert (IN : In m (sym B)). { apply in_sym. destruct (Z_le_gt_dec (Z.abs m) (Z.of_nat B)) as [|G]; [lia|]. exfalso. apply Hm. unfold h. rewrite cut_out by lia. ring. }
      split; [intros _; assumption|]. intros _. apply in_map_iff. exists (m + Z.of_nat (S p) * l)%Z. split; [lia|]. apply in_sym in IN. apply in_sym. assert (Z.abs (Z.of_nat (S p) * l) <= Z.of_nat (S p) * Z.of_nat b)%Z by (rewrite Z.abs_mul; nia). lia.
  - apply csum_ext. intros m Hm. apply in_sym in Hm. unfold h. now rewrite cut_in.
Qed.
(** The phase of the harmonics 1 to p. *)
Fixpoint phases (alpha phi : nat -> R) (p : nat) (x : R) : R := match p with O => 0 | S p' => phases alpha phi p' x + alpha p * sin (INR p * x - phi p) end.
Lemma one_harmonic alpha phi p b x q : 0 < q <= 1 ->
  Cmod (Cminus (trig b (jacobi_anger besselJ alpha phi) (INR p * x)) (cis (alpha * sin (INR p * x - phi)))) <= 4 * Rabs alpha * decay alpha q * q ^ b.
Proof.
  intros Q. replace (trig b (jacobi_anger besselJ alpha phi) (INR p * x)) with (csum (sym b) (fun n => Cmult (RtoC (besselZ besselJ n alpha)) (cis (IZR n * (INR p * x - phi))))); [now apply jacobi_anger_expansion|].
  unfold trig. apply csum_ext. intros n _. unfold jacobi_anger. rewrite <- Cmult_assoc, <- cis_add. do 2 f_equal. ring.
Qed.
Theorem phase_factor_series alpha phi p q : (1 <= p)%nat -> 0 < q <= 1 -> exists K, 0 <= K /\ forall B b n W x, (n <= b)%nat -> (n <= B)%nat -> (n <= W)%nat ->
  Cmod (Cminus (trig W (phase_factor B b (fun p => jacobi_anger besselJ (alpha p) (phi p)) p) x) (cis (phases alpha phi p x))) <= K * q ^ n.
Proof.
  intros P Q. set (A := fun p => jacobi_anger besselJ (alpha p) (phi p)). assert (HA : forall p, (1 <= p)%nat -> rapid (A p)) by (intros; apply rapid_bessel).
  assert (Q2 : 0 < q * / 2 <= 1) by lra.
  induction P as [|p P [K [K0 IH]]].
  - destruct (dominated A HA 1 (q * / 2) (le_n 1) Q2) as [K [K0 HK]]. set (D := 4 * Rabs (alpha 1%nat) * decay (alpha 1%nat) q). assert (D0 : 0 <= D). { unfold D. apply Rmult_le_pos; [pose proof (Rabs_pos (alpha 1%nat)); lra|left; apply decay_pos]. }
    exists (3 * K + D). split; [lra|]. intros B b n W x L1 L2 L3.
    replace (Cminus (trig W (phase_factor B b A 1) x) (cis (phases alpha phi 1 x))) with (Cplus (Cminus (trig W (phase_factor B b A 1) x) (trig b (phase_factor B b A 1) x)) (Cminus (trig b (phase_factor B b A 1) x) (cis (phases alpha phi 1 x)))) by ring.
    eapply Rle_trans; [apply Cmod_triangle|]. rewrite Rmult_plus_distr_r. apply Rplus_le_compat. { apply trig_close; auto. }
    cbn [phases]. rewrite Rplus_0_l. replace (trig b (phase_factor B b A 1) x) with (trig b (A 1%nat) (INR 1 * x)).
    2:{ unfold trig. apply csum_ext. intros k Hk. rewrite phase_factor_1, cut_in by now apply in_sym. change (INR 1) with 1. now rewrite Rmult_1_l. }
    eapply Rle_trans; [now apply (one_harmonic (alpha 1%nat) (phi 1%nat) 1 b x q)|]. fold D. apply Rmult_le_compat_l; [assumption|]. now apply pow_decr.
  - destruct (dominated A HA (S p) (q * / 2) ltac:(lia) Q2) as [KC [KC0 HK]]. set (D := 4 * Rabs (alpha (S p)) * decay (alpha (S p)) q). assert (D0 : 0 <= D). { unfold D. apply Rmult_le_pos; [pose proof (Rabs_pos (alpha (S p))); lra|left; apply decay_pos]. }
    exists (3 * KC + (K * (1 + D) + D)). split; [nra|]. intros B b n W x L1 L2 L3. set (N := Nat.max W (B + S p * b)).
    replace (Cminus (trig W (phase_factor B b A (S p)) x) (cis (phases alpha phi (S p) x))) with (Cplus (Cminus (trig W (phase_factor B b A (S p)) x) (trig N (phase_factor B b A (S p)) x)) (Cminus (trig N (phase_factor B b A (S p)) x) (cis (phases alpha phi (S p) x)))) by ring.
    eapply Rle_trans; [apply Cmod_triangle|]. rewrite Rmult_plus_distr_r. apply Rplus_le_compat. { apply trig_close; auto. unfold N. lia. }
    rewrite (trig_product B b A p N x) by (unfold N; lia). cbn [phases]. rewrite cis_add. set (y := trig b (A (S p)) (INR (S p) * x)). set (y' := cis (alpha (S p) * sin (INR (S p) * x - phi (S p)))). set (z := trig B (phase_factor B b A p) x). set (z' := cis (phases alpha phi p x)).
    assert (HZ : Cmod (Cminus z z') <= K * q ^ n) by (apply IH; lia). assert (HY : Cmod (Cminus y y') <= D * q ^ n). { eapply Rle_trans; [now apply (one_harmonic (alpha (S p)) (phi (S p)) (S p) b x q)|]. fold D. apply Rmult_le_compat_l; [assumption|]. now apply pow_decr. }
    assert (Z1 : Cmod z' = 1) by apply Cmod_cis. assert (Y1 : Cmod y <= 1 + D). { replace y with (Cplus y' (Cminus y y')) by ring. eapply Rle_trans; [apply Cmod_triangle|]. unfold y' at 1. rewrite Cmod_cis. assert (q ^ n <= 1) by now apply pow_le_1. assert (0 < q ^ n) by (apply pow_lt; lra). nra. }
    replace (Cminus (Cmult z y) (Cmult z' y')) with (Cplus (Cmult (Cminus z z') y) (Cmult z' (Cminus y y'))) by ring. eapply Rle_trans; [apply Cmod_triangle|]. rewrite !Cmod_mult, Z1.
    assert (X1 := Cmod_ge_0 (Cminus z z')). assert (X2 := Cmod_ge_0 y). assert (0 < q ^ n) by (apply pow_lt; lra). assert (Cmod (Cminus z z') * Cmod y <= K * q ^ n * (1 + D)) by (apply Rmult_le_compat; assumption). nra.
Qed.

(** ** The API *)
Lemma sum_snoc l x : fold_right Rplus 0 (l ++ [x]) = fold_right Rplus 0 l + x.
Proof. induction l as [|a l IH]; cbn; [lra|]. rewrite IH. lra. Qed.
Lemma junction_phases vj freq P f i t : junction_phase vj freq P f i t = phases (fun p => Cmod (vj f p i) / (INR p * freq f)) (fun p => angle (vj f p i)) P (freq f * t).
Proof.
  unfold junction_phase. induction P as [|P IH]; [reflexivity|]. rewrite seq_S, map_app. cbn [map Nat.add]. rewrite sum_snoc, IH. reflexivity.
Qed.
Theorem phase_is_integral vj freq P f i t : freq f <> 0 -> is_derive (junction_phase vj freq P f i) t (waveform vj freq P f i t).
Proof.
  intros F. unfold waveform. induction P as [|P IH].
  - apply is_derive_ext with (fun _ => 0). { reflexivity. } cbn. exact (is_derive_const (0 : R) t).
  - apply is_derive_ext with (fun t => junction_phase vj freq P f i t + Cmod (vj f (S P) i) / (INR (S P) * freq f) * sin (INR (S P) * (freq f * t) - angle (vj f (S P) i))).
    { intros u. unfold junction_phase. rewrite seq_S, map_app. cbn [map Nat.add]. now rewrite sum_snoc. }
    rewrite seq_S, map_app. cbn [map Nat.add]. rewrite sum_snoc. apply @is_derive_plus; [exact IH|].
    assert (NZ : INR (S P) <> 0) by (apply not_0_INR; lia). generalize dependent (INR (S P)). intros r NZ. auto_derive; [exact I|]. replace (r * (freq f * t) + - angle (vj f (S P) i)) with (r * (freq f * t) - angle (vj f (S P) i)) by ring. field. auto.
Qed.
Lemma coefficient_value J vj freq num_f num_p num_b ccc f k i : (1 <= num_p)%nat -> (num_f <= length (nbtuple num_b num_f))%nat -> (1 <= f <= num_f)%nat ->
  calculate_phase_factor_coeff J vj freq num_f num_p num_b = Ok ccc -> (- Z.of_nat (list_max (nbtuple num_b num_f)) <= k <= Z.of_nat (list_max (nbtuple num_b num_f)))%Z ->
  coefficient ccc f k i = phase_factor (list_max (nbtuple num_b num_f)) (nth (f - 1) (nbtuple num_b num_f) O) (fun p => jacobi_anger J (Cmod (vj f p i) / (INR p * freq f)) (angle (vj f p i))) num_p k.
Proof.
  intros P L F E K. destruct (calculate_phase_factor_coeff_spec J vj freq num_f num_p num_b ltac:(lia) P L) as [c [E' [Ef [Ek H]]]]. rewrite E in E'. inversion E'; subst c. clear E'.
  unfold coefficient, cc_get, nbidx. rewrite Ef, Ek, pyidx_nonneg by lia. rewrite pyidx_sym by assumption. cbn [bind]. rewrite Nat2Z.id. now apply H.
Qed.
Theorem series_converges vj freq num_f num_p f i q : (1 <= num_p)%nat -> (1 <= f <= num_f)%nat -> freq f <> 0 -> 0 < q <= 1 ->
  exists K, 0 <= K /\ forall num_b n ccc t, (num_f <= length (nbtuple num_b num_f))%nat -> Forall (le n) (truncations num_b num_f) ->
  calculate_phase_factor_coeff besselJ vj freq num_f num_p num_b = Ok ccc ->
  Cmod (Cminus (series ccc f (nth (f - 1) (nbtuple num_b num_f) O) i (freq f * t)) (cis (junction_phase vj freq num_p f i t))) <= K * q ^ n.
Proof.
  intros P F NZ Q. destruct (phase_factor_series (fun p => Cmod (vj f p i) / (INR p * freq f)) (fun p => angle (vj f p i)) num_p q P Q) as [K [K0 H]]. exists K. split; [assumption|].
  intros num_b n ccc t L T E. rewrite junction_phases. assert (B := nb_le (nbtuple num_b num_f) (f - 1)). assert (NB := at_least_nth n num_b num_f f T L F).
  unfold series. rewrite (csum_ext _ _ (fun k => Cmult (phase_factor (list_max (nbtuple num_b num_f)) (nth (f - 1) (nbtuple num_b num_f) O) (fun p => jacobi_anger besselJ (Cmod (vj f p i) / (INR p * freq f)) (angle (vj f p i))) num_p k) (cis (IZR k * (freq f * t))))).
  2:{ intros k Hk. apply in_sym in Hk. rewrite (coefficient_value besselJ vj freq num_f num_p num_b ccc f k i P L F E) by lia. reflexivity. }
  apply H; lia.
Qed.
