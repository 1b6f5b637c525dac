(** A resistor obeys Ohm's law at every frequency, for any number of tones and
    harmonics, up to a truncation error that vanishes faster than geometrically. *)
From Coq Require Import List ZArith Bool Reals Lia Lra Psatz.
From Coquelicot Require Import Coquelicot.
From Verif Require Import Base Sums Round Bessel Model_QtCurrent Spec_QtCurrent Spec_QtApi Spec_Power Spec_Phase Proof_QtCurrent Proof_QtCurrent2 Proof_QtWit Proof_QtSym Proof_QtApi Proof_QtApi2 Proof_Power2 Proof_Bessel Proof_Weights Proof_Decay Proof_Converge Proof_JacobiAnger Proof_Phase Proof_Fourier.
Import ListNotations.
Open Scope R_scope.
Local Notation length := List.length.
Local Notation Forall := List.Forall.

(** ** Orthonormality and first moments of one tone *)
Definition overlap (t : tone) (a : Z) : C := csum (sym (t_b t)) (fun k => Cmult (t_C t k) (Cconj (cut (t_b t) (t_C t) (k + a)))).
Definition moment (t : tone) (a : Z) : C := csum (sym (t_b t)) (fun k => Cmult (tilt (t_C t) k) (Cconj (cut (t_b t) (t_C t) (k + a)))).
Definition kron (a : Z) : C := if (a =? 0)%Z then RtoC 1 else RtoC 0.
(** The Fourier coefficients of the derivative of the phase. *)
Definition rate (alpha phi : nat -> R) (P : nat) (a : Z) : C :=
  csum (seq 1 P) (fun m => Cmult (RtoC (/ 2 * (INR m * alpha m))) (Cplus (Cmult (cis (- phi m)) (kron (a + Z.of_nat m))) (Cmult (cis (phi m)) (kron (a - Z.of_nat m))))).
Lemma avg_slopes alpha phi P a N : (Z.of_nat P + Z.abs a < Z.of_nat N)%Z -> avg N (fun x => Cmult (RtoC (slopes alpha phi P x)) (cis (IZR a * x))) = rate alpha phi P a.
Proof.
  intros H. unfold rate. induction P as [|P IH].
  - rewrite (avg_ext N _ (fun x => Cmult (RtoC 0) (cis (IZR a * x)))) by reflexivity. rewrite avg_scal. cbn. ring.
  - rewrite seq_S, csum_app. cbn [csum Nat.add]. rewrite <- IH by lia. set (m := S P).
    rewrite (avg_ext N _ (fun x => Cplus (Cmult (RtoC (slopes alpha phi P x)) (cis (IZR a * x))) (Cmult (RtoC (/ 2 * (INR m * alpha m))) (Cplus (Cmult (cis (- phi m)) (cis (IZR (a + Z.of_nat m) * x))) (Cmult (cis (phi m)) (cis (IZR (a - Z.of_nat m) * x))))))).
    2:{ intros x. change (slopes alpha phi m x) with (slopes alpha phi P x + INR m * alpha m * cos (INR m * x - phi m)). rewrite RtoC_plus. rewrite plus_IZR, minus_IZR, <- INR_IZR_INZ. replace ((IZR a + INR m) * x) with (IZR a * x + INR m * x) by ring. replace ((IZR a - INR m) * x) with (IZR a * x + - (INR m * x)) by ring. rewrite !cis_add.
        assert (E : RtoC (INR m * alpha m * cos (INR m * x - phi m)) = Cmult (RtoC (/ 2 * (INR m * alpha m))) (Cplus (Cmult (cis (- phi m)) (cis (INR m * x))) (Cmult (cis (phi m)) (cis (- (INR m * x)))))).
        { rewrite <- !cis_add. replace (- phi m + INR m * x) with (INR m * x - phi m) by ring. replace (phi m + - (INR m * x)) with (- (INR m * x - phi m)) by ring. unfold cis, Cplus, Cmult, RtoC. cbn [fst snd]. rewrite cos_neg, sin_neg. f_equal; field. }
        rewrite E. ring. }
    rewrite avg_plus, avg_scal, avg_plus, !avg_scal, !avg_cis by lia. unfold kron. ring.
Qed.
Section one_tone.
Variables (alpha phi : nat -> R) (P : nat).
Hypothesis HP : (1 <= P)%nat.
Let tn (B b : nat) : tone := Tone b (phase_factor B b (fun p => jacobi_anger besselJ (alpha p) (phi p)) P).
Lemma overlap_near q : 0 < q <= 1 -> exists K, 0 <= K /\ forall B b n a, (n <= b)%nat -> (b <= B)%nat -> Cmod (Cminus (overlap (tn B b) a) (kron a)) <= K * q ^ n.
Proof.
  intros Q. destruct (phase_factor_series alpha phi P q HP Q) as [K [K0 H]]. exists (K * (2 + K)). split; [nra|]. intros B b n a L1 L2.
  unfold overlap, tn. cbn [t_b t_C]. set (c := phase_factor B b (fun p => jacobi_anger besselJ (alpha p) (phi p)) P). set (N := (2 * b + Z.abs_nat a + 1)%nat).
  rewrite (correlation b b c c a N) by lia. unfold kron. rewrite <- (avg_cis N a) by lia. apply avg_close; [lia|]. intros x. set (F := trig b c x). set (E := cis (phases alpha phi P x)).
  assert (D : Cmod (Cminus F E) <= K * q ^ n) by (apply H; lia). assert (QN : q ^ n <= 1) by now apply pow_le_1. assert (QN0 : 0 < q ^ n) by (apply pow_lt; lra).
  assert (E1 : Cmult E (Cconj E) = RtoC 1). { unfold E. rewrite Cconj_cis, Cmult_comm. apply cis_inv. }
  replace (Cminus (Cmult (Cmult F (Cconj F)) (cis (IZR a * x))) (cis (IZR a * x))) with (Cmult (Cplus (Cmult (Cminus F E) (Cconj F)) (Cmult E (Cminus (Cconj F) (Cconj E)))) (cis (IZR a * x))).
  2:{ transitivity (Cmult (Cminus (Cmult F (Cconj F)) (Cmult E (Cconj E))) (cis (IZR a * x))); [ring|]. rewrite E1. ring. }
  rewrite Cmod_mult, Cmod_cis, Rmult_1_r. eapply Rle_trans; [apply Cmod_triangle|]. rewrite !Cmod_mult, Cconj_minus', !Cmod_Cconj. unfold E at 2. rewrite Cmod_cis, Rmult_1_l.
  assert (F1 : Cmod F <= 1 + K). { replace F with (Cplus E (Cminus F E)) by ring. eapply Rle_trans; [apply Cmod_triangle|]. unfold E at 1. rewrite Cmod_cis. nra. }
  assert (X := Cmod_ge_0 (Cminus F E)). assert (Y := Cmod_ge_0 F). assert (Cmod (Cminus F E) * Cmod F <= K * q ^ n * (1 + K)) by (apply Rmult_le_compat; assumption). nra.
Qed.
Lemma moment_near q : 0 < q <= 1 -> exists K, 0 <= K /\ forall B b n a, (n <= b)%nat -> (b <= B)%nat -> Cmod (Cminus (moment (tn B b) a) (rate alpha phi P a)) <= K * q ^ n.
Proof.
  intros Q. destruct (phase_factor_series alpha phi P q HP Q) as [K [K0 H]]. destruct (moment_series alpha phi P q HP Q) as [K1 [K10 H1]]. set (SB := rsum (seq 1 P) (fun m => INR m * Rabs (alpha m))). assert (SB0 : 0 <= SB). { apply rsum_nonneg. intros m _. apply Rmult_le_pos; [apply pos_INR|apply Rabs_pos]. }
  exists (K1 * (1 + K) + SB * K). split; [nra|]. intros B b n a L1 L2.
  unfold moment, tn. cbn [t_b t_C]. set (c := phase_factor B b (fun p => jacobi_anger besselJ (alpha p) (phi p)) P). set (N := (2 * b + Z.abs_nat a + P + 1)%nat).
  rewrite (correlation b b (tilt c) c a N) by lia. rewrite <- (avg_slopes alpha phi P a N) by lia. apply avg_close; [lia|]. intros x. set (F := trig b c x). set (G := trig b (tilt c) x). set (E := cis (phases alpha phi P x)). set (s := slopes alpha phi P x).
  assert (D : Cmod (Cminus F E) <= K * q ^ n) by (apply H; lia). assert (D1 : Cmod (Cminus G (Cmult (RtoC s) E)) <= K1 * q ^ n) by (apply H1; lia). assert (QN : q ^ n <= 1) by now apply pow_le_1. assert (QN0 : 0 < q ^ n) by (apply pow_lt; lra).
  assert (E1 : Cmult E (Cconj E) = RtoC 1). { unfold E. rewrite Cconj_cis, Cmult_comm. apply cis_inv. }
  replace (Cminus (Cmult (Cmult G (Cconj F)) (cis (IZR a * x))) (Cmult (RtoC s) (cis (IZR a * x)))) with (Cmult (Cplus (Cmult (Cminus G (Cmult (RtoC s) E)) (Cconj F)) (Cmult (Cmult (RtoC s) E) (Cminus (Cconj F) (Cconj E)))) (cis (IZR a * x))).
  2:{ transitivity (Cmult (Cminus (Cmult G (Cconj F)) (Cmult (RtoC s) (Cmult E (Cconj E)))) (cis (IZR a * x))); [ring|]. rewrite E1. ring. }
  rewrite Cmod_mult, Cmod_cis, Rmult_1_r. eapply Rle_trans; [apply Cmod_triangle|]. rewrite !Cmod_mult, Cconj_minus', !Cmod_Cconj, Cmod_R. replace (Cmod E) with 1 by (symmetry; apply Cmod_cis). rewrite Rmult_1_r.
  assert (F1 : Cmod F <= 1 + K). { replace F with (Cplus E (Cminus F E)) by ring. eapply Rle_trans; [apply Cmod_triangle|]. unfold E at 1. rewrite Cmod_cis. nra. }
  assert (S1 : Rabs s <= SB) by apply slopes_bound.
  assert (X := Cmod_ge_0 (Cminus F E)). assert (Y := Cmod_ge_0 F). assert (Z := Cmod_ge_0 (Cminus G (Cmult (RtoC s) E))). assert (S0 := Rabs_pos s).
  assert (T1 : Cmod (Cminus G (Cmult (RtoC s) E)) * Cmod F <= K1 * q ^ n * (1 + K)) by (apply Rmult_le_compat; assumption). assert (T2 : Rabs s * Cmod (Cminus F E) <= SB * (K * q ^ n)) by (apply Rmult_le_compat; assumption). lra.
Qed.
End one_tone.

(** The voltage at harmonic a of a tone, counting negative frequencies. *)
Definition harmonic_voltage (v : nat -> C) (P : nat) (a : Z) : C :=
  if ((1 <=? a) && (a <=? Z.of_nat P))%Z then v (Z.abs_nat a) else if ((a <=? -1) && (- Z.of_nat P <=? a))%Z then Cconj (v (Z.abs_nat a)) else RtoC 0.
Lemma rate_voltage v fr P a : fr <> 0 -> Cmult (RtoC fr) (rate (fun p => Cmod (v p) / (INR p * fr)) (fun p => angle (v p)) P a) = Cmult (RtoC (/ 2)) (harmonic_voltage v P a).
Proof.
  intros F. unfold rate. rewrite <- csum_scal_l.
  rewrite (csum_ext _ _ (fun m => Cmult (RtoC (/ 2)) (Cplus (Cmult (Cconj (v m)) (kron (a + Z.of_nat m))) (Cmult (v m) (kron (a - Z.of_nat m)))))).
  2:{ intros m Hm. apply in_seq in Hm. assert (M : INR m <> 0) by (apply not_0_INR; lia). assert (V := angle_polar (v m)). assert (VC : Cconj (v m) = Cmult (RtoC (Cmod (v m))) (cis (- angle (v m)))). { rewrite V at 1. now rewrite Cconj_mult, Cconj_R, Cconj_cis. }
      replace (v m) with (Cmult (RtoC (Cmod (v m))) (cis (angle (v m)))) at 5 by now rewrite <- V. rewrite VC.
      replace (RtoC (/ 2 * (INR m * (Cmod (v m) / (INR m * fr))))) with (Cmult (RtoC (/ 2)) (Cmult (RtoC (Cmod (v m))) (RtoC (/ fr)))). 2:{ rewrite <- !RtoC_mult. f_equal. field. auto. }
      replace (Cmult (RtoC fr) (Cmult (Cmult (RtoC (/ 2)) (Cmult (RtoC (Cmod (v m))) (RtoC (/ fr)))) (Cplus (Cmult (cis (- angle (v m))) (kron (a + Z.of_nat m))) (Cmult (cis (angle (v m))) (kron (a - Z.of_nat m)))))) with
        (Cmult (Cmult (RtoC fr) (RtoC (/ fr))) (Cmult (RtoC (/ 2)) (Cplus (Cmult (Cmult (RtoC (Cmod (v m))) (cis (- angle (v m)))) (kron (a + Z.of_nat m))) (Cmult (Cmult (RtoC (Cmod (v m))) (cis (angle (v m)))) (kron (a - Z.of_nat m)))))) by ring.
      rewrite <- RtoC_mult, Rinv_r by assumption. ring. }
  rewrite csum_scal_l. f_equal. unfold harmonic_voltage.
  destruct (Z_le_gt_dec 1 a) as [A|A]; [|destruct (Z_le_gt_dec a (-1)) as [A'|A']].
  - replace (1 <=? a)%Z with true by (symmetry; apply Z.leb_le; lia). replace (a <=? -1)%Z with false by (symmetry; apply Z.leb_gt; lia). cbn [andb].
    destruct (Z.leb_spec a (Z.of_nat P)) as [L|L].
    + rewrite (csum_single _ (Z.abs_nat a)); [|apply seq_NoDup|apply in_seq; lia|].
      * unfold kron. destruct (Z.eqb_spec (a + Z.of_nat (Z.abs_nat a)) 0); [lia|]. destruct (Z.eqb_spec (a - Z.of_nat (Z.abs_nat a)) 0); [ring|lia].
      * intros m Hm NE. apply in_seq in Hm. unfold kron. destruct (Z.eqb_spec (a + Z.of_nat m) 0); [lia|]. destruct (Z.eqb_spec (a - Z.of_nat m) 0); [lia|ring].
    + apply csum_0. intros m Hm. apply in_seq in Hm. unfold kron. destruct (Z.eqb_spec (a + Z.of_nat m) 0); [lia|]. destruct (Z.eqb_spec (a - Z.of_nat m) 0); [lia|ring].
  - replace (1 <=? a)%Z with false by (symmetry; apply Z.leb_gt; lia). replace (a <=? -1)%Z with true by (symmetry; apply Z.leb_le; lia). cbn [andb].
    destruct (Z.leb_spec (- Z.of_nat P) a) as [L|L].
    + rewrite (csum_single _ (Z.abs_nat a)); [|apply seq_NoDup|apply in_seq; lia|].
      * unfold kron. destruct (Z.eqb_spec (a + Z.of_nat (Z.abs_nat a)) 0); [|lia]. destruct (Z.eqb_spec (a - Z.of_nat (Z.abs_nat a)) 0); [lia|ring].
      * intros m Hm NE. apply in_seq in Hm. unfold kron. destruct (Z.eqb_spec (a + Z.of_nat m) 0); [lia|]. destruct (Z.eqb_spec (a - Z.of_nat m) 0); [lia|ring].
    + apply csum_0. intros m Hm. apply in_seq in Hm. unfold kron. destruct (Z.eqb_spec (a + Z.of_nat m) 0); [lia|]. destruct (Z.eqb_spec (a - Z.of_nat m) 0); [lia|ring].
  - assert (a = 0)%Z as -> by lia. cbn [Z.leb Z.compare andb]. replace (0 <=? -1)%Z with false by reflexivity. cbn [andb]. replace (1 <=? 0)%Z with false by reflexivity. cbn [andb]. apply csum_0. intros m Hm. apply in_seq in Hm. unfold kron. destruct (Z.eqb_spec (0 + Z.of_nat m) 0); [lia|]. destruct (Z.eqb_spec (0 - Z.of_nat m) 0); [lia|ring].
Qed.

(** ** Sequences that converge at a given rate *)
Section rates.
Context {I : Type} (V : I -> Prop) (n : I -> nat) (q : R).
Hypothesis Q : 0 < q <= 1.
Definition fast (u l : I -> C) : Prop := exists K, 0 <= K /\ forall x, V x -> Cmod (Cminus (u x) (l x)) <= K * q ^ n x.
Definition bdd (l : I -> C) : Prop := exists L, 0 <= L /\ forall x, V x -> Cmod (l x) <= L.
Lemma fast_same u l : (forall x, V x -> u x = l x) -> fast u l.
Proof. intros H. exists 0. split; [lra|]. intros x Hx. rewrite H by assumption. unfold Cminus. rewrite Cplus_opp_r, Cmod_0. lra. Qed.
Lemma fast_ext u u' l l' : (forall x, V x -> u x = u' x) -> (forall x, V x -> l x = l' x) -> fast u' l' -> fast u l.
Proof. intros H1 H2 [K [K0 H]]. exists K. split; [assumption|]. intros x Hx. rewrite H1, H2 by assumption. now apply H. Qed.
Lemma fast_plus u v l m : fast u l -> fast v m -> fast (fun x => Cplus (u x) (v x)) (fun x => Cplus (l x) (m x)).
Proof.
  intros [K [K0 H]] [K' [K0' H']]. exists (K + K'). split; [lra|]. intros x Hx. replace (Cminus (Cplus (u x) (v x)) (Cplus (l x) (m x))) with (Cplus (Cminus (u x) (l x)) (Cminus (v x) (m x))) by ring.
  eapply Rle_trans; [apply Cmod_triangle|]. assert (A := H x Hx). assert (B := H' x Hx). lra.
Qed.
Lemma fast_mult u v l m : fast u l -> fast v m -> bdd l -> bdd m -> fast (fun x => Cmult (u x) (v x)) (fun x => Cmult (l x) (m x)).
Proof.
  intros [K [K0 H]] [K' [K0' H']] [L [L0 HL]] [M [M0 HM]]. exists (K * (M + K') + L * K'). split; [apply Rplus_le_le_0_compat; apply Rmult_le_pos; lra|]. intros x Hx.
  replace (Cminus (Cmult (u x) (v x)) (Cmult (l x) (m x))) with (Cplus (Cmult (Cminus (u x) (l x)) (v x)) (Cmult (l x) (Cminus (v x) (m x)))) by ring.
  assert (A := H x Hx). assert (B := H' x Hx). assert (C1 := HL x Hx). assert (C2 := HM x Hx). assert (QN : q ^ n x <= 1) by now apply pow_le_1. assert (QP : 0 < q ^ n x) by (apply pow_lt; lra).
  assert (VB : Cmod (v x) <= M + K'). { replace (v x) with (Cplus (m x) (Cminus (v x) (m x))) by ring. eapply Rle_trans; [apply Cmod_triangle|]. nra. }
  eapply Rle_trans; [apply Cmod_triangle|]. rewrite !Cmod_mult.
  assert (T1 : Cmod (Cminus (u x) (l x)) * Cmod (v x) <= K * q ^ n x * (M + K')) by (apply Rmult_le_compat; try apply Cmod_ge_0; assumption).
  assert (T2 : Cmod (l x) * Cmod (Cminus (v x) (m x)) <= L * (K' * q ^ n x)) by (apply Rmult_le_compat; try apply Cmod_ge_0; assumption). lra.
Qed.
Lemma fast_scal c u l : fast u l -> fast (fun x => Cmult c (u x)) (fun x => Cmult c (l x)).
Proof.
  intros [K [K0 H]]. exists (Cmod c * K). split; [apply Rmult_le_pos; [apply Cmod_ge_0|assumption]|]. intros x Hx. replace (Cminus (Cmult c (u x)) (Cmult c (l x))) with (Cmult c (Cminus (u x) (l x))) by ring.
  rewrite Cmod_mult, Rmult_assoc. apply Rmult_le_compat_l; [apply Cmod_ge_0|now apply H].
Qed.
Lemma bdd_mult l m : bdd l -> bdd m -> bdd (fun x => Cmult (l x) (m x)).
Proof. intros [L [L0 HL]] [M [M0 HM]]. exists (L * M). split; [now apply Rmult_le_pos|]. intros x Hx. rewrite Cmod_mult. apply Rmult_le_compat; try apply Cmod_ge_0; [now apply HL|now apply HM]. Qed.
Lemma bdd_plus l m : bdd l -> bdd m -> bdd (fun x => Cplus (l x) (m x)).
Proof. intros [L [L0 HL]] [M [M0 HM]]. exists (L + M). split; [lra|]. intros x Hx. eapply Rle_trans; [apply Cmod_triangle|]. apply Rplus_le_compat; [now apply HL|now apply HM]. Qed.
Lemma bdd_const c : bdd (fun _ => c).
Proof. exists (Cmod c). split; [apply Cmod_ge_0|]. intros; lra. Qed.
End rates.

(** ** The sums of a linear response factorise *)
Fixpoint overlaps (ts : list tone) (a : list Z) : C :=
  match ts, a with t :: ts, a0 :: a => Cmult (overlap t a0) (overlaps ts a) | _, _ => RtoC 1 end.
Fixpoint moments (ts : list tone) (fs : list R) (a : list Z) : C :=
  match ts, fs, a with
  | t :: ts, f :: fs, a0 :: a => Cplus (Cmult (Cmult (RtoC f) (moment t a0)) (overlaps ts a)) (Cmult (overlap t a0) (moments ts fs a))
  | _, _, _ => RtoC 0
  end.
Lemma rs_same ts : forall a rk rk', (forall ks, rk ks = rk' ks) -> rs_sum ts a rk = rs_sum ts a rk'.
Proof. induction ts as [|t ts IH]; intros [|a0 a] rk rk' H; cbn [rs_sum]; try apply H. apply csum_ext. intros k _. f_equal. apply IH. intros ks. apply H. Qed.
Lemma rs_linear c : forall ts fs a v, length fs = length ts -> length a = length ts ->
  rs_sum ts a (fun ks => Cmult c (RtoC (v + dot ks fs))) = Cmult c (Cplus (Cmult (RtoC v) (overlaps ts a)) (moments ts fs a)).
Proof.
  induction ts as [|t ts IH]; intros fs a v L1 L2; destruct fs as [|f fs]; try discriminate; destruct a as [|a0 a]; try discriminate.
  - cbn [rs_sum overlaps moments dot]. rewrite Rplus_0_r. ring.
  - cbn [rs_sum overlaps moments]. cbn in L1, L2. assert (E1 : length fs = length ts) by lia. assert (E2 : length a = length ts) by lia.
    transitivity (csum (sym (t_b t)) (fun k => Cplus (Cmult (Cmult (t_C t k) (Cconj (cut (t_b t) (t_C t) (k + a0)))) (Cmult c (Cplus (Cmult (RtoC v) (overlaps ts a)) (moments ts fs a))))
      (Cmult (Cmult (tilt (t_C t) k) (Cconj (cut (t_b t) (t_C t) (k + a0)))) (Cmult c (Cmult (RtoC f) (overlaps ts a)))))).
    + apply csum_ext. intros k _.
      transitivity (Cmult (Cmult (t_C t k) (Cconj (cut (t_b t) (t_C t) (k + a0)))) (rs_sum ts a (fun ks => Cmult c (RtoC ((v + IZR k * f) + dot ks fs))))).
      { f_equal. apply rs_same. intros ks. cbn [dot]. now rewrite Rplus_assoc. }
      rewrite IH by assumption. rewrite RtoC_plus, RtoC_mult. unfold tilt. ring.
    + rewrite csum_plus, !csum_scal_r. unfold overlap, moment. ring.
Qed.

(** ** The simulated currents of a resistor *)
Lemma hv_bound v P : exists L, 0 <= L /\ forall a, Cmod (harmonic_voltage v P a) <= L.
Proof.
  destruct (finite_bound (seq 0 (S P)) (fun m K => Cmod (v m) <= K)) as [L [L0 H]]. { intros; lra. } { intros m _. exists (Cmod (v m)). split; [apply Cmod_ge_0|lra]. }
  exists L. split; [assumption|]. intros a. unfold harmonic_voltage. destruct (Z.leb_spec 1 a); destruct (Z.leb_spec a (Z.of_nat P)); destruct (Z.leb_spec a (-1)); destruct (Z.leb_spec (- Z.of_nat P) a); cbn [andb]; rewrite ?Cmod_Cconj, ?Cmod_0; try assumption; apply H; apply in_seq; lia.
Qed.
Section circuit.
Variables (vj : nat -> nat -> vec) (cct : qcct) (i : nat) (q : R).
Hypothesis Q : 0 < q <= 1.
Hypothesis P : (1 <= q_num_p cct)%nat.
(** A truncation argument, a bound on it from below and an index vector. *)
Record inst := Inst { i_b : numb; i_n : nat; i_a : nat -> Z }.
Definition valid (x : inst) : Prop := args_ok cct (i_b x) /\ Forall (le (i_n x)) (truncations (i_b x) (q_num_f cct)).
Definition tn (x : inst) (f : nat) : tone :=
  tone_of besselJ angle vj (q_freq cct) (q_num_p cct) (list_max (nbtuple (i_b x) (q_num_f cct))) (nth (f - 1) (nbtuple (i_b x) (q_num_f cct)) O) f i.
Notation conv := (fast valid i_n q).
Lemma valid_nb x f : valid x -> (1 <= f <= q_num_f cct)%nat -> (i_n x <= nth (f - 1) (nbtuple (i_b x) (q_num_f cct)) 0)%nat.
Proof. intros [A T] F. apply at_least_nth; try assumption. now apply args_enough. Qed.
Lemma conv_overlap f : (1 <= f <= q_num_f cct)%nat -> conv (fun x => overlap (tn x f) (i_a x f)) (fun x => kron (i_a x f)).
Proof.
  intros F. destruct (overlap_near (fun p => Cmod (vj f p i) / (INR p * q_freq cct f)) (fun p => angle (vj f p i)) (q_num_p cct) P q Q) as [K [K0 H]]. exists K. split; [assumption|]. intros x Hx.
  apply (H (list_max (nbtuple (i_b x) (q_num_f cct))) (nth (f - 1) (nbtuple (i_b x) (q_num_f cct)) O)); [now apply valid_nb|apply nb_le].
Qed.
Definition half_drive (f : nat) (a : Z) : C := Cmult (RtoC (/ 2)) (harmonic_voltage (fun p => vj f p i) (q_num_p cct) a).
Lemma conv_moment f : (1 <= f <= q_num_f cct)%nat -> conv (fun x => Cmult (RtoC (q_freq cct f)) (moment (tn x f) (i_a x f))) (fun x => half_drive f (i_a x f)).
Proof.
  intros F. destruct (moment_near (fun p => Cmod (vj f p i) / (INR p * q_freq cct f)) (fun p => angle (vj f p i)) (q_num_p cct) P q Q) as [K [K0 H]].
  apply (fast_ext valid i_n q _ (fun x => Cmult (RtoC (q_freq cct f)) (moment (tn x f) (i_a x f))) _ (fun x => Cmult (RtoC (q_freq cct f)) (rate (fun p => Cmod (vj f p i) / (INR p * q_freq cct f)) (fun p => angle (vj f p i)) (q_num_p cct) (i_a x f)))); [reflexivity| |].
  - intros x [(_ & _ & A & _) _]. unfold half_drive. symmetry. apply (rate_voltage (fun p => vj f p i)). apply Rgt_not_eq, A, F.
  - apply fast_scal. exists K. split; [assumption|]. intros x Hx. apply (H (list_max (nbtuple (i_b x) (q_num_f cct))) (nth (f - 1) (nbtuple (i_b x) (q_num_f cct)) O)); [now apply valid_nb|apply nb_le].
Qed.
Lemma bdd_kron f : bdd valid (fun x => kron (i_a x f)).
Proof. exists 1. split; [lra|]. intros x _. unfold kron. destruct (_ =? _)%Z; rewrite Cmod_R; [rewrite Rabs_R1|rewrite Rabs_R0]; lra. Qed.
Lemma bdd_drive f : bdd valid (fun x => half_drive f (i_a x f)).
Proof. apply bdd_mult; [apply bdd_const|]. destruct (hv_bound (fun p => vj f p i) (q_num_p cct)) as [L [L0 H]]. exists L. split; [assumption|]. intros; apply H. Qed.
(** The limits. *)
Fixpoint krons (l : list nat) (a : nat -> Z) : C := match l with [] => RtoC 1 | f :: l => Cmult (kron (a f)) (krons l a) end.
Fixpoint drives (l : list nat) (a : nat -> Z) : C := match l with [] => RtoC 0 | f :: l => Cplus (Cmult (half_drive f (a f)) (krons l a)) (Cmult (kron (a f)) (drives l a)) end.
Lemma conv_all l : (forall f, In f l -> (1 <= f <= q_num_f cct)%nat) ->
  (conv (fun x => overlaps (map (tn x) l) (map (i_a x) l)) (fun x => krons l (i_a x)) /\ bdd valid (fun x => krons l (i_a x))) /\
  (conv (fun x => moments (map (tn x) l) (map (q_freq cct) l) (map (i_a x) l)) (fun x => drives l (i_a x)) /\ bdd valid (fun x => drives l (i_a x))).
Proof.
  induction l as [|f l IH]; intros H; cbn [map overlaps moments krons drives].
  - split; split; try apply fast_same; try apply bdd_const; reflexivity.
  - destruct IH as [[O1 O2] [M1 M2]]; [intros f' Hf; apply H; now right|]. assert (F := H f (or_introl eq_refl)).
    split; split.
    + apply fast_mult; [exact Q|now apply conv_overlap|assumption|apply bdd_kron|assumption].
    + apply bdd_mult; [apply bdd_kron|assumption].
    + apply fast_plus; apply fast_mult; try exact Q; try assumption; [now apply conv_moment|apply bdd_drive|now apply conv_overlap|apply bdd_kron].
    + apply bdd_plus; apply bdd_mult; try assumption; [apply bdd_drive|apply bdd_kron].
Qed.
Definition neg (x : inst) : inst := Inst (i_b x) (i_n x) (fun f => (- i_a x f)%Z).
Theorem conv_linear g l : (forall f, In f l -> (1 <= f <= q_num_f cct)%nat) ->
  conv (fun x => rs_sum (map (tn x) l) (map (i_a x) l) (fun ks => (0, g * (q_vb cct i + dot ks (map (q_freq cct) l)))))
       (fun x => Cmult (0, g) (Cplus (Cmult (RtoC (q_vb cct i)) (krons l (i_a x))) (drives l (i_a x)))).
Proof.
  intros H. destruct (conv_all l H) as [[O1 O2] [M1 M2]].
  apply (fast_ext valid i_n q _ (fun x => Cmult (0, g) (Cplus (Cmult (RtoC (q_vb cct i)) (overlaps (map (tn x) l) (map (i_a x) l))) (moments (map (tn x) l) (map (q_freq cct) l) (map (i_a x) l)))) _
    (fun x => Cmult (0, g) (Cplus (Cmult (RtoC (q_vb cct i)) (krons l (i_a x))) (drives l (i_a x))))); [|reflexivity|].
  - intros x _. rewrite <- rs_linear by now rewrite !map_length. apply rs_same. intros ks. unfold Cmult, RtoC. cbn [fst snd]. f_equal; ring.
  - apply fast_scal, fast_plus; [now apply fast_scal|assumption].
Qed.
End circuit.

(** ** The limits at the mixing products *)
Definition comb (dc : bool) (p m : C) : C := if dc then RtoC (Im p) else (Im p + Im m, - (Re p - Re m)).
Lemma coeff_comb ts a rk : coeff ts a rk = comb (forallb (fun x => x =? 0)%Z a) (rs_sum ts a rk) (rs_sum ts (map Z.opp a) rk).
Proof. unfold coeff, comb. now destruct (forallb _ _). Qed.
Lemma comb_near dc p m p' m' X : Cmod (Cminus p p') <= X -> Cmod (Cminus m m') <= X -> Cmod (Cminus (comb dc p m) (comb dc p' m')) <= 4 * X.
Proof.
  unfold comb. intros H1 H2. assert (P1 := Im_Cmod (Cminus p p')). assert (P2 := Re_Cmod (Cminus p p')). assert (M1 := Im_Cmod (Cminus m m')). assert (M2 := Re_Cmod (Cminus m m')). assert (X0 := Cmod_ge_0 (Cminus p p')). destruct p as [pr pi], p' as [pr' pi'], m as [mr mi], m' as [mr' mi']. cbn [Im Re fst snd Cminus Cplus Copp] in *.
  destruct dc.
  - rewrite <- RtoC_minus, Cmod_R. unfold Rminus. lra.
  - unfold Cminus, Cplus, Copp. cbn [fst snd]. eapply Rle_trans; [apply Cmod_parts|].
    replace (pi + mi + - (pi' + mi')) with ((pi + - pi') + (mi + - mi')) by ring. replace (- (pr - mr) + - - (pr' - mr')) with (- (pr + - pr') + (mr + - mr')) by ring.
    assert (A1 := Rabs_triang (pi + - pi') (mi + - mi')). assert (A2 := Rabs_triang (- (pr + - pr')) (mr + - mr')). rewrite Rabs_Ropp in A2. lra.
Qed.
Lemma krons_one l a : (forall f, In f l -> a f = 0%Z) -> krons l a = RtoC 1.
Proof. induction l as [|f l IH]; intros H; [reflexivity|]. cbn [krons]. rewrite IH by (intros; apply H; now right). rewrite (H f (or_introl eq_refl)). unfold kron. cbn [Z.eqb]. ring. Qed.
Lemma krons_zero l a f : In f l -> a f <> 0%Z -> krons l a = RtoC 0.
Proof.
  induction l as [|f' l IH]; intros HI H; [destruct HI|]; destruct HI as [-> |HI]; cbn [krons]. { unfold kron. destruct (Z.eqb_spec (a f) 0); [contradiction|ring]. } rewrite IH by assumption. ring.
Qed.
Lemma half_drive_0 vj cct i f : half_drive vj cct i f 0 = RtoC 0.
Proof. unfold half_drive, harmonic_voltage. cbn [Z.leb Z.compare andb]. ring. Qed.
Lemma drives_zero vj cct i l a : (forall f, In f l -> a f = 0%Z) -> drives vj cct i l a = RtoC 0.
Proof. induction l as [|f l IH]; intros H; [reflexivity|]. cbn [drives]. rewrite IH by (intros; apply H; now right). rewrite (H f (or_introl eq_refl)), half_drive_0. ring. Qed.
Lemma drives_single vj cct i l a f : NoDup l -> In f l -> (forall f', In f' l -> f' <> f -> a f' = 0%Z) -> drives vj cct i l a = half_drive vj cct i f (a f).
Proof.
  induction l as [|f' l IH]; intros ND HI H; [destruct HI|]; inversion ND as [|? ? NI ND']; subst; destruct HI as [-> |HI]; cbn [drives].
  - rewrite drives_zero, krons_one; [ring| |]; intros f' Hf; apply H; try (now right); intros ->; contradiction.
  - assert (f' <> f) by (intros ->; contradiction). rewrite (IH ND' HI) by (intros f0 X0 X1; apply H; [now right|assumption]). rewrite (H f' (or_introl eq_refl)) by assumption. rewrite half_drive_0. unfold kron. cbn [Z.eqb]. ring.
Qed.
Lemma drives_mixed vj cct i l a f f' : NoDup l -> In f l -> In f' l -> f <> f' -> a f <> 0%Z -> a f' <> 0%Z -> drives vj cct i l a = RtoC 0.
Proof.
  induction l as [|h l IH]; intros ND H H' NE A A'; [destruct H|]. inversion ND as [|? ? NI ND']; subst. cbn [drives]. destruct H as [-> |H], H' as [-> |H'].
  - contradiction.
  - rewrite (krons_zero l a f') by assumption. unfold kron. destruct (Z.eqb_spec (a f) 0); [contradiction|ring].
  - rewrite (krons_zero l a f) by assumption. unfold kron. destruct (Z.eqb_spec (a f') 0); [contradiction|ring].
  - rewrite IH by assumption. rewrite (krons_zero l a f) by assumption. ring.
Qed.
Lemma alone_current cct ts vb resp w a : length ts = q_num_f cct -> alone cct w a -> In a (index_vectors (q_num_p cct) (q_num_f cct)) -> round4 (dot a (freqs cct)) = round4 w ->
  current (q_num_p cct) ts (freqs cct) vb resp w = coeff ts a (fun ks => resp (vb + dot ks (freqs cct))).
Proof.
  intros L A I W. unfold current. rewrite L. rewrite (csum_single _ a).
  - unfold same_freq. destruct (Req_EM_T _ _) as [_|N]; [reflexivity|contradiction].
  - apply index_vectors_NoDup.
  - assumption.
  - intros a' Ha Na. unfold same_freq. destruct (Req_EM_T _ _) as [E|]; [|reflexivity]. exfalso. apply Na. now apply A.
Qed.
Lemma alone_nothing cct ts vb resp w a : length ts = q_num_f cct -> alone cct w a -> ~ (In a (index_vectors (q_num_p cct) (q_num_f cct)) /\ round4 (dot a (freqs cct)) = round4 w) ->
  current (q_num_p cct) ts (freqs cct) vb resp w = RtoC 0.
Proof.
  intros L A N. unfold current. rewrite L. apply csum_0. intros a' Ha. unfold same_freq. destruct (Req_EM_T _ _) as [E|]; [|reflexivity]. exfalso. apply N. rewrite <- (A a' Ha E). now split.
Qed.
Lemma dot_repeat n fs : dot (repeat 0%Z n) fs = 0.
Proof. revert fs. induction n as [|n IH]; intros [|f l]; cbn; try reflexivity. rewrite IH. ring. Qed.
Lemma dot_single (fr : nat -> R) f p : forall l, NoDup l -> In f l -> dot (map (fun f' => if Nat.eqb f' f then Z.of_nat p else 0%Z) l) (map fr l) = INR p * fr f.
Proof.
  assert (Z0 : forall l, ~ In f l -> dot (map (fun f' => if Nat.eqb f' f then Z.of_nat p else 0%Z) l) (map fr l) = 0).
  { induction l as [|h l IH]; intros N; cbn [map dot]; [reflexivity|]. rewrite IH by (intros X; apply N; now right). destruct (Nat.eqb_spec h f) as [-> |]; [exfalso; apply N; now left|ring]. }
  induction l as [|h l IH]; intros ND HI; [destruct HI|]; inversion ND; subst; destruct HI as [-> |HI]; cbn [map dot].
  - rewrite Nat.eqb_refl, Z0 by assumption. rewrite <- INR_IZR_INZ. ring.
  - rewrite IH by assumption. destruct (Nat.eqb_spec h f) as [-> |]; [contradiction|ring].
Qed.
Lemma map_zero n : forall s, map (fun _ : nat => 0%Z) (seq s n) = repeat 0%Z n.
Proof. induction n as [|n IH]; intros s; cbn [seq map repeat]; [reflexivity|]. now rewrite IH. Qed.
Section ohm.
Variables (vj : nat -> nat -> vec) (cct : qcct) (g : R).
(** The current that flows at the index vector with entries a. *)
Definition flow (i : nat) (a : nat -> Z) : C :=
  let l := seq 1 (q_num_f cct) in
  let s := fun a => Cmult (0, g) (Cplus (Cmult (RtoC (q_vb cct i)) (krons l a)) (drives vj cct i l a)) in
  comb (forallb (fun x => x =? 0)%Z (map a l)) (s a) (s (fun f => (- a f)%Z)).
Lemma flow_dc i a : (forall f, In f (seq 1 (q_num_f cct)) -> a f = 0%Z) -> flow i a = RtoC (g * q_vb cct i).
Proof.
  intros H. unfold flow, comb. replace (forallb _ _) with true. 2:{ symmetry. apply forallb_forall. intros x Hx. apply in_map_iff in Hx. destruct Hx as [f [<- Hf]]. apply Z.eqb_eq. now apply H. }
  rewrite krons_one, drives_zero by assumption. unfold Cmult, Cplus, RtoC, Im. cbn [fst snd]. f_equal. ring.
Qed.
Lemma forallb_nz (l : list nat) (a : nat -> Z) f : In f l -> a f <> 0%Z -> forallb (fun x => x =? 0)%Z (map a l) = false.
Proof. intros H N. destruct (forallb _ _) eqn:E; [|reflexivity]. rewrite forallb_forall in E. assert (X := E (a f) (in_map a l f H)). apply Z.eqb_eq in X. contradiction. Qed.
Lemma flow_single i f p a : (1 <= f <= q_num_f cct)%nat -> (1 <= p <= q_num_p cct)%nat -> a f = Z.of_nat p -> (forall f', In f' (seq 1 (q_num_f cct)) -> f' <> f -> a f' = 0%Z) -> flow i a = Cmult (RtoC g) (vj f p i).
Proof.
  intros F P E H. assert (IF : In f (seq 1 (q_num_f cct))) by (apply in_seq; lia). assert (ND := seq_NoDup (q_num_f cct) 1). unfold flow, comb. rewrite (forallb_nz _ a f) by (try assumption; lia).
  rewrite !(krons_zero _ _ f) by (try assumption; lia). rewrite (drives_single vj cct i _ a f ND IF H). rewrite (drives_single vj cct i _ (fun f => (- a f)%Z) f ND IF) by (intros f' Hf Nf; rewrite H by assumption; reflexivity). rewrite E.
  unfold half_drive, harmonic_voltage. replace (1 <=? Z.of_nat p)%Z with true by (symmetry; apply Z.leb_le; lia). replace (Z.of_nat p <=? Z.of_nat (q_num_p cct))%Z with true by (symmetry; apply Z.leb_le; lia). replace (1 <=? - Z.of_nat p)%Z with false by (symmetry; apply Z.leb_gt; lia).
  replace (- Z.of_nat p <=? -1)%Z with true by (symmetry; apply Z.leb_le; lia). replace (- Z.of_nat (q_num_p cct) <=? - Z.of_nat p)%Z with true by (symmetry; apply Z.leb_le; lia). cbn [andb].
  replace (Z.abs_nat (- Z.of_nat p)) with p by lia. replace (Z.abs_nat (Z.of_nat p)) with p by lia. destruct (vj f p i) as [x y]. unfold Cmult, Cplus, Cconj, RtoC, Re, Im. cbn [fst snd]. f_equal; field.
Qed.
Lemma flow_mixed i a f f' : In f (seq 1 (q_num_f cct)) -> In f' (seq 1 (q_num_f cct)) -> f <> f' -> a f <> 0%Z -> a f' <> 0%Z -> flow i a = RtoC 0.
Proof.
  intros H H' NE A A'. assert (ND := seq_NoDup (q_num_f cct) 1). unfold flow, comb. rewrite (forallb_nz _ a f) by assumption. rewrite !(krons_zero _ _ f) by (try assumption; lia). rewrite (drives_mixed vj cct i _ a f f') by assumption. rewrite (drives_mixed vj cct i _ (fun f => (- a f)%Z) f f') by (try assumption; lia).
  unfold Cmult, Cplus, RtoC, Re, Im. cbn [fst snd]. f_equal; ring.
Qed.
Lemma ohm_point i q : 0 < q <= 1 -> (1 <= q_num_p cct)%nat -> exists K, 0 <= K /\ forall num_b n a, args_ok cct num_b -> Forall (le n) (truncations num_b (q_num_f cct)) ->
  Cmod (Cminus (coeff (tones besselJ vj cct num_b i) (map a (seq 1 (q_num_f cct))) (fun ks => (0, g * (q_vb cct i + dot ks (freqs cct))))) (flow i a)) <= K * q ^ n.
Proof.
  intros Q P. destruct (conv_linear vj cct i q Q P g (seq 1 (q_num_f cct))) as [K [K0 H]]. { intros f Hf. apply in_seq in Hf. lia. }
  exists (4 * K). split; [lra|]. intros num_b n a A T. rewrite coeff_comb. unfold flow. rewrite Rmult_assoc. apply comb_near.
  - exact (H (Inst num_b n a) (conj A T)).
  - rewrite map_map. exact (H (Inst num_b n (fun f => (- a f)%Z)) (conj A T)).
Qed.
Theorem ohm_limits q : 0 < q -> exists K, 0 <= K /\ forall num_b n l rows i j, args_ok cct num_b -> Forall (le n) (truncations num_b (q_num_f cct)) ->
  qtcurrent besselJ vj cct (fun v => (0, g * v)) (FList l) num_b None = Ok (QRows rows) -> (j < length l)%nat -> (i < q_npts cct)%nat ->
  let w := nth j l 0 in let I := nth i (nth j rows []) (RtoC 0) in
  (round4 w = 0 -> alone cct w (repeat 0%Z (q_num_f cct)) -> Cmod (Cminus I (RtoC (g * q_vb cct i))) <= K * q ^ n) /\
  (forall f p, (1 <= f <= q_num_f cct)%nat -> (1 <= p <= q_num_p cct)%nat -> round4 w = round4 (INR p * q_freq cct f) -> alone cct w (single (q_num_f cct) f p) ->
    Cmod (Cminus I (Cmult (RtoC g) (vj f p i))) <= K * q ^ n) /\
  (forall a, mixed a -> alone cct w a -> Cmod I <= K * q ^ n).
Proof.
  intros Q0. destruct (le_lt_dec 1 (q_num_p cct)) as [P|P].
  2:{ exists 0. split; [lra|]. intros num_b n l rows i j (_ & X & _). lia. }
  set (q1 := Rmin q 1). assert (Q : 0 < q1 <= 1). { unfold q1. split; [apply Rmin_pos; lra|apply Rmin_r]. }
  destruct (finite_bound (seq 0 (q_npts cct)) (fun i K => forall num_b n a, args_ok cct num_b -> Forall (le n) (truncations num_b (q_num_f cct)) ->
    Cmod (Cminus (coeff (tones besselJ vj cct num_b i) (map a (seq 1 (q_num_f cct))) (fun ks => (0, g * (q_vb cct i + dot ks (freqs cct))))) (flow i a)) <= K * q1 ^ n)) as [K [K0 HK]].
  { intros i K K' _ L G num_b n a A1 T. eapply Rle_trans; [exact (G num_b n a A1 T)|]. apply Rmult_le_compat_r; [left; apply pow_lt; lra|assumption]. }
  { intros i _. now apply ohm_point. }
  exists K. split; [assumption|]. intros num_b n l rows i j A T E Hj Hi w I. apply qt_rows in E; [|assumption]. subst rows. unfold I. clear I. rewrite (nth_mapped _ l j [] 0) by assumption. fold w. unfold spec_row. rewrite nth_tab by assumption.
  assert (LT := tones_len besselJ vj cct num_b i). assert (Hi' : In i (seq 0 (q_npts cct))) by (apply in_seq; lia).
  assert (QN : K * q1 ^ n <= K * q ^ n). { apply Rmult_le_compat_l; [assumption|]. apply pow_incr. split; [lra|apply Rmin_l]. }
  assert (LV : forall a, In a (index_vectors (q_num_p cct) (q_num_f cct)) -> a = map (fun f => nth (f - 1) a 0%Z) (seq 1 (q_num_f cct))).
  { intros a Ha. apply index_length in Ha. apply nth_ext with 0%Z 0%Z. { now rewrite map_length, seq_length. } intros k Hk. rewrite Ha in Hk. rewrite (nth_mapped _ (seq 1 (q_num_f cct)) k 0%Z 0%nat) by now rewrite seq_length. rewrite seq_nth by assumption. f_equal. lia. }
  split; [|split].
  - intros W AL. rewrite (alone_current cct _ _ _ w (repeat 0%Z (q_num_f cct)) LT AL).
    + rewrite <- (flow_dc i (fun _ => 0%Z)) by reflexivity. replace (repeat 0%Z (q_num_f cct)) with (map (fun _ : nat => 0%Z) (seq 1 (q_num_f cct))). { eapply Rle_trans; [|exact QN]. now apply HK. }
      apply map_zero.
    + apply in_index_vectors. split; [apply repeat_length|]. apply Forall_forall. intros k Hk. apply repeat_spec in Hk. subst k. lia.
    + rewrite dot_repeat, W. apply round4_0.
  - intros f p F Pp W AL. rewrite (alone_current cct _ _ _ w (single (q_num_f cct) f p) LT AL).
    + rewrite <- (flow_single i f p (fun f' => if Nat.eqb f' f then Z.of_nat p else 0%Z) F Pp). { eapply Rle_trans; [|exact QN]. now apply HK. } { now rewrite Nat.eqb_refl. } intros f' _ NE. destruct (Nat.eqb_spec f' f); [contradiction|reflexivity].
    + apply in_index_vectors. split; [unfold single; now rewrite map_length, seq_length|]. apply Forall_forall. intros k Hk. unfold single in Hk. apply in_map_iff in Hk. destruct Hk as [f' [<- _]]. destruct (Nat.eqb _ _); lia.
    + unfold single, freqs. rewrite dot_single; [now symmetry|apply seq_NoDup|apply in_seq; lia].
  - intros a (k & k' & NE & A1 & A2) AL.
    destruct (in_dec (list_eq_dec Z.eq_dec) a (index_vectors (q_num_p cct) (q_num_f cct))) as [IN|NI]; [destruct (Req_EM_T (round4 (dot a (freqs cct))) (round4 w)) as [W|W]|].
    + rewrite (alone_current cct _ _ _ w a LT AL IN W). assert (La := index_length _ _ _ IN). assert (Lk : (k < length a)%nat). { destruct (le_lt_dec (length a) k); [|assumption]. exfalso. apply A1. now apply nth_overflow. } assert (Lk' : (k' < length a)%nat). { destruct (le_lt_dec (length a) k'); [|assumption]. exfalso. apply A2. now apply nth_overflow. }
      rewrite (LV a IN). set (u := coeff _ _ _). assert (FL : flow i (fun f => nth (f - 1) a 0%Z) = RtoC 0). { apply (flow_mixed i _ (S k) (S k')); try (apply in_seq; lia); [lia| |]; cbn; now rewrite Nat.sub_0_r. }
      replace u with (Cminus u (flow i (fun f => nth (f - 1) a 0%Z))) by (rewrite FL; ring). eapply Rle_trans; [|exact QN]. now apply HK.
    + rewrite (alone_nothing cct _ _ _ w a LT AL) by tauto. rewrite Cmod_0. apply Rmult_le_pos; [assumption|]. apply pow_le. lra.
    + rewrite (alone_nothing cct _ _ _ w a LT AL) by tauto. rewrite Cmod_0. apply Rmult_le_pos; [assumption|]. apply pow_le. lra.
Qed.
End ohm.
