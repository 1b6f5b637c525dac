(** Discrete Fourier averages of the phase factor: its coefficients are orthonormal
    and their first moments are the harmonics of the voltage. *)
From Coq Require Import List ZArith Bool Reals Lia Lra Psatz.
From Coquelicot Require Import Coquelicot.
From Verif Require Import Base Sums Round Bessel Model_QtCurrent Spec_QtCurrent Spec_QtApi Spec_Power Spec_Phase Proof_QtCurrent Proof_QtCurrent2 Proof_QtWit Proof_QtSym Proof_QtApi Proof_Bessel Proof_Weights Proof_Decay Proof_Converge Proof_JacobiAnger Proof_Phase.
Import ListNotations.
Open Scope R_scope.
Local Notation length := List.length.
Local Notation Forall := List.Forall.

(** ** Averages over a period *)
Definition node (N j : nat) : R := 2 * PI * INR j / INR N.
Definition avg (N : nat) (g : R -> C) : C := Cmult (RtoC (/ INR N)) (csum (seq 0 N) (fun j => g (node N j))).
Lemma avg_close N g h e : (0 < N)%nat -> (forall x, Cmod (Cminus (g x) (h x)) <= e) -> Cmod (Cminus (avg N g) (avg N h)) <= e.
Proof.
  intros HN H. unfold avg. replace (Cminus (Cmult (RtoC (/ INR N)) (csum (seq 0 N) (fun j => g (node N j)))) (Cmult (RtoC (/ INR N)) (csum (seq 0 N) (fun j => h (node N j))))) with (Cmult (RtoC (/ INR N)) (Cminus (csum (seq 0 N) (fun j => g (node N j))) (csum (seq 0 N) (fun j => h (node N j))))) by ring.
  assert (P : 0 < INR N) by now apply lt_0_INR. rewrite Cmod_mult, Cmod_R, Rabs_pos_eq by (left; now apply Rinv_0_lt_compat).
  assert (X := csum_near (seq 0 N) (fun j => g (node N j)) (fun j => h (node N j)) e (fun j _ => H _)). rewrite seq_length in X.
  apply Rle_trans with (/ INR N * (INR N * e)); [|right; field; lra]. apply Rmult_le_compat_l; [left; now apply Rinv_0_lt_compat|assumption].
Qed.
Lemma avg_csum {A} N (l : list A) g : avg N (fun x => csum l (fun a => g a x)) = csum l (fun a => avg N (g a)).
Proof. unfold avg. rewrite csum_swap. now rewrite csum_scal_l. Qed.
Lemma avg_scal N c g : avg N (fun x => Cmult c (g x)) = Cmult c (avg N g).
Proof. unfold avg. rewrite csum_scal_l. ring. Qed.
Lemma avg_plus N g h : avg N (fun x => Cplus (g x) (h x)) = Cplus (avg N g) (avg N h).
Proof. unfold avg. rewrite csum_plus. ring. Qed.
Lemma avg_ext N g h : (forall x, g x = h x) -> avg N g = avg N h.
Proof. intros H. unfold avg. f_equal. apply csum_ext. intros; apply H. Qed.
Lemma csum_const {A} (l : list A) c : csum l (fun _ => c) = Cmult (RtoC (INR (length l))) c.
Proof. induction l as [|x l IH]; cbn [csum length]. { simpl. ring. } rewrite IH, S_INR, RtoC_plus. ring. Qed.
Fixpoint cpow (z : C) (n : nat) : C := match n with O => RtoC 1 | S n' => Cmult z (cpow z n') end.
Lemma geometric (z : C) n : Cmult (Cminus z (RtoC 1)) (csum (seq 0 n) (fun j => cpow z j)) = Cminus (cpow z n) (RtoC 1).
Proof. induction n as [|n IH]. { cbn [seq csum cpow]. ring. } rewrite seq_S, csum_app. cbn [csum Nat.add]. replace (Cmult (Cminus z (RtoC 1)) (Cplus (csum (seq 0 n) (fun j => cpow z j)) (Cplus (cpow z n) (RtoC 0)))) with (Cplus (Cmult (Cminus z (RtoC 1)) (csum (seq 0 n) (fun j => cpow z j))) (Cmult (Cminus z (RtoC 1)) (cpow z n))) by ring. rewrite IH. cbn [cpow]. ring. Qed.
Lemma cis_pow x j : cpow (cis x) j = cis (INR j * x).
Proof. induction j as [|j IH]; cbn [cpow]. { rewrite Rmult_0_l. now rewrite cis_0. } rewrite IH, S_INR, <- cis_add. f_equal. ring. Qed.
Lemma cis_2PI_Z m : cis (2 * PI * IZR m) = RtoC 1.
Proof.
  assert (E : cis (2 * PI) = cis 0). { unfold cis. rewrite cos_2PI, sin_2PI, cos_0, sin_0. reflexivity. } apply (cis_Z m) in E. rewrite Rmult_0_r, cis_0 in E. rewrite <- E. f_equal. ring.
Qed.
Lemma avg_cis N m : (Z.abs m < Z.of_nat N)%Z -> avg N (fun x => cis (IZR m * x)) = if (m =? 0)%Z then RtoC 1 else RtoC 0.
Proof.
  intros H. assert (P : 0 < INR N) by (apply lt_0_INR; lia). destruct (Z.eqb_spec m 0) as [-> |NZ].
  - unfold avg. rewrite (csum_ext _ _ (fun _ => RtoC 1)) by (intros; now rewrite Rmult_0_l, cis_0). rewrite csum_const, seq_length, <- !RtoC_mult. f_equal. field. lra.
  - unfold avg. set (z := cis (2 * PI * IZR m / INR N)). rewrite (csum_ext _ _ (fun j => cpow z j)). 2:{ intros j _. unfold z. rewrite cis_pow. f_equal. unfold node. field. lra. }
    assert (G := geometric z N). assert (ZN : cpow z N = RtoC 1). { unfold z. rewrite cis_pow. rewrite <- (cis_2PI_Z m). f_equal. field. lra. }
    rewrite ZN in G. replace (Cminus (RtoC 1) (RtoC 1)) with (RtoC 0) in G by ring.
    assert (Z1 : Cminus z (RtoC 1) <> RtoC 0).
    { intros E. assert (ER : Re z = 1). { replace z with (Cplus (Cminus z (RtoC 1)) (RtoC 1)) by ring. rewrite E. unfold Cplus, RtoC, Re. cbn [fst]. ring. } unfold z, cis, Re in ER. cbn [fst] in ER.
      replace (2 * PI * IZR m / INR N) with (2 * (PI * IZR m / INR N)) in ER by (field; lra). rewrite cos_2a_sin in ER.
      set (y := PI * IZR m / INR N) in *. assert (S0 : sin y = 0) by nra. assert (PI0 := PI_RGT_0). apply sin_eq_0_0 in S0. destruct S0 as [k Hk]. unfold y in Hk.
      assert (E2 : IZR m = IZR k * INR N). { apply Rmult_eq_reg_l with PI; [|lra]. apply Rmult_eq_reg_r with (/ INR N); [|apply Rinv_neq_0_compat; lra]. replace (PI * (IZR k * INR N) * / INR N) with (IZR k * PI) by (field; lra). exact Hk. }
      rewrite INR_IZR_INZ, <- mult_IZR in E2. apply eq_IZR in E2. subst m. destruct (Z.eq_dec k 0) as [-> |]; [lia|]. rewrite Z.abs_mul in H. nia. }
    assert (S0 : csum (seq 0 N) (fun j => cpow z j) = RtoC 0). { replace (csum (seq 0 N) (fun j => cpow z j)) with (Cmult (Cinv (Cminus z (RtoC 1))) (Cmult (Cminus z (RtoC 1)) (csum (seq 0 N) (fun j => cpow z j)))); [rewrite G; ring|]. rewrite Cmult_assoc, Cinv_l by assumption. ring. }
    rewrite S0. ring.
Qed.
Lemma Cconj_cis x : Cconj (cis x) = cis (- x). Proof. unfold cis, Cconj. cbn [fst snd]. now rewrite cos_neg, sin_neg. Qed.
(** The sums of products of coefficients are averages. *)
Lemma correlation n n' c c' a N : (Z.of_nat n + Z.of_nat n' + Z.abs a < Z.of_nat N)%Z ->
  csum (sym n) (fun k => Cmult (c k) (Cconj (cut n' c' (k + a)))) = avg N (fun x => Cmult (Cmult (trig n c x) (Cconj (trig n' c' x))) (cis (IZR a * x))).
Proof.
  intros H. rewrite (avg_ext N _ (fun x => csum (sym n) (fun k => csum (sym n') (fun l => Cmult (Cmult (c k) (Cconj (c' l))) (cis (IZR (k - l + a) * x)))))).
  2:{ intros x. unfold trig. rewrite csum_conj, <- Cmult_assoc, <- csum_scal_r. apply csum_ext. intros k _. rewrite <- csum_scal_r, <- csum_scal_l. apply csum_ext. intros l _. rewrite Cconj_mult, Cconj_cis.
      replace (IZR (k - l + a) * x) with (IZR k * x + (- (IZR l * x) + IZR a * x)) by (rewrite plus_IZR, minus_IZR; ring). rewrite !cis_add. ring. }
  rewrite avg_csum. apply csum_ext. intros k Hk. rewrite avg_csum. apply in_sym in Hk.
  rewrite (csum_ext _ _ (fun l => if (k - l + a =? 0)%Z then Cmult (c k) (Cconj (c' l)) else RtoC 0)).
  2:{ intros l Hl. apply in_sym in Hl. rewrite avg_scal, avg_cis by lia. destruct (_ =? _)%Z; ring. }
  destruct (Z_le_gt_dec (Z.abs (k + a)) (Z.of_nat n')) as [S|S].
  - rewrite (csum_single _ (k + a)%Z); [|apply sym_NoDup|apply in_sym; lia|]. { replace (k - (k + a) + a)%Z with 0%Z by lia. rewrite Z.eqb_refl. now rewrite cut_in by lia. }
    intros l _ NE. destruct (Z.eqb_spec (k - l + a) 0); [lia|reflexivity].
  - rewrite csum_0. { rewrite cut_out by lia. rewrite Cconj_R. ring. } intros l Hl. apply in_sym in Hl. destruct (Z.eqb_spec (k - l + a) 0); [lia|reflexivity].
Qed.

(** ** First moments *)
Definition tilt (c : Z -> C) (k : Z) : C := Cmult (RtoC (IZR k)) (c k).
Lemma tilt_decay c K q : 0 < q -> (forall k, Cmod (c k) <= K * pw (q * / 2) k) -> 0 <= K -> forall k, Cmod (tilt c k) <= K * pw q k.
Proof.
  intros Q H K0 k. unfold tilt. rewrite Cmod_mult, Cmod_R. assert (X := H k). rewrite pw_mult in X. assert (PQ := pw_pos q k Q).
  assert (L : Rabs (IZR k) * pw (/ 2) k <= 1). { rewrite <- abs_IZR, <- Zabs2Nat.id_abs, <- INR_IZR_INZ. unfold pw. generalize (Z.abs_nat k). intros n. clear. induction n as [|n IH]; [cbn; lra|]. rewrite S_INR. cbn [pow]. assert (Y := pow_le_1 (/ 2) n ltac:(lra)). lra. }
  assert (A0 := Rabs_pos (IZR k)). apply Rle_trans with (Rabs (IZR k) * (K * (pw q k * pw (/ 2) k))). { now apply Rmult_le_compat_l. }
  replace (Rabs (IZR k) * (K * (pw q k * pw (/ 2) k))) with (K * pw q k * (Rabs (IZR k) * pw (/ 2) k)) by ring. assert (0 <= K * pw q k) by nra. nra.
Qed.
Lemma tilt_product B b A p N x : (1 <= p)%nat -> (B + S p * b <= N)%nat ->
  trig N (tilt (phase_factor B b A (S p))) x = Cplus (Cmult (trig B (tilt (phase_factor B b A p)) x) (trig b (A (S p)) (INR (S p) * x))) (Cmult (trig B (phase_factor B b A p) x) (Cmult (RtoC (INR (S p))) (trig b (tilt (A (S p))) (INR (S p) * x)))).
Proof.
  intros P L. unfold trig. set (pf := phase_factor B b A p).
  rewrite (csum_ext (sym N) _ (fun k => Cplus (csum (sym b) (fun l => Cmult (Cmult (cut B (tilt pf) (k - Z.of_nat (S p) * l)) (cis (IZR (k - Z.of_nat (S p) * l) * x))) (Cmult (A (S p) l) (cis (IZR l * (INR (S p) * x))))))
     (csum (sym b) (fun l => Cmult (Cmult (cut B pf (k - Z.of_nat (S p) * l)) (cis (IZR (k - Z.of_nat (S p) * l) * x))) (Cmult (RtoC (INR (S p))) (Cmult (tilt (A (S p)) l) (cis (IZR l * (INR (S p) * x))))))))).
  2:{ intros k _. unfold tilt at 1. rewrite phase_factor_S by lia. fold pf. rewrite <- csum_scal_l, <- csum_scal_r, <- csum_plus. apply csum_ext. intros l _. replace (IZR k * x) with (IZR (k - Z.of_nat (S p) * l) * x + IZR l * (INR (S p) * x)) by (rewrite minus_IZR, mult_IZR, INR_IZR_INZ; ring).
      rewrite cis_add. assert (T : cut B (tilt pf) (k - Z.of_nat (S p) * l)%Z = Cmult (RtoC (IZR (k - Z.of_nat (S p) * l))) (cut B pf (k - Z.of_nat (S p) * l)%Z)). { unfold cut, tilt. destruct (_ <=? _)%Z; ring. } rewrite T. unfold tilt.
      replace (RtoC (IZR k)) with (Cplus (RtoC (IZR (k - Z.of_nat (S p) * l))) (Cmult (RtoC (INR (S p))) (RtoC (IZR l)))). { ring. } rewrite <- RtoC_mult, <- RtoC_plus. f_equal. rewrite minus_IZR, mult_IZR, INR_IZR_INZ. ring. }
  assert (W : forall g l, (- Z.of_nat b <= l <= Z.of_nat b)%Z -> csum (sym N) (fun k => Cmult (cut B g (k - Z.of_nat (S p) * l)) (cis (IZR (k - Z.of_nat (S p) * l) * x))) = csum (sym B) (fun k => Cmult (g k) (cis (IZR k * x)))).
  { intros g l Hl. set (h := fun m => Cmult (cut B g m) (cis (IZR m * x))). change (csum (sym N) (fun k => h (k - Z.of_nat (S p) * l)%Z) = csum (sym B) (fun k => Cmult (g k) (cis (IZR k * x)))).
    rewrite <- (csum_map (fun k => (k - Z.of_nat (S p) * l)%Z)). transitivity (csum (sym B) h).
    - apply csum_support.
      + apply FinFun.Injective_map_NoDup; [intros a a' E; lia|apply sym_NoDup].
      + apply sym_NoDup.
      + intros m Hm. assert (IN : In m (sym B)). { apply in_sym. destruct (Z_le_gt_dec (Z.abs m) (Z.of_nat B)) as [|G]; [lia|]. exfalso. apply Hm. unfold h. rewrite cut_out by lia. ring. }
        split; [intros _; assumption|]. intros _. apply in_map_iff. exists (m + Z.of_nat (S p) * l)%Z. split; [lia|]. apply in_sym in IN. apply in_sym. assert (Z.abs (Z.of_nat (S p) * l) <= Z.of_nat (S p) * Z.of_nat b)%Z by (rewrite Z.abs_mul; nia). lia.
    - apply csum_ext. intros m Hm. apply in_sym in Hm. unfold h. now rewrite cut_in. }
  rewrite csum_plus. f_equal; rewrite csum_swap.
  - rewrite <- csum_scal_l. apply csum_ext. intros l Hl. apply in_sym in Hl. rewrite csum_scal_r. now rewrite W.
  - rewrite <- !csum_scal_l. apply csum_ext. intros l Hl. apply in_sym in Hl. rewrite csum_scal_r. rewrite W by assumption. ring.
Qed.
(** The derivative of the phase. *)
Fixpoint slopes (alpha phi : nat -> R) (p : nat) (x : R) : R := match p with O => 0 | S p' => slopes alpha phi p' x + INR p * alpha p * cos (INR p * x - phi p) end.
Lemma one_moment alpha phi b y q : 0 < q <= 1 ->
  Cmod (Cminus (trig b (tilt (jacobi_anger besselJ alpha phi)) y) (Cmult (RtoC (alpha * cos (y - phi))) (cis (alpha * sin (y - phi))))) <= (Rabs alpha * (4 * Rabs alpha * decay alpha q) + 2 * Rabs alpha * decay alpha q) * q ^ b.
Proof.
  intros Q. set (psi := y - phi). set (s := fun n => Cmult (RtoC (besselZ besselJ n alpha)) (cis (IZR n * psi))).
  replace (trig b (tilt (jacobi_anger besselJ alpha phi)) y) with (csum (sym b) (fun n => Cmult (RtoC (IZR n)) (s n))).
  2:{ unfold trig. apply csum_ext. intros n _. unfold tilt, jacobi_anger, s. rewrite <- !Cmult_assoc, <- cis_add. do 3 f_equal. unfold psi. ring. }
  assert (REC : forall n, Cmult (RtoC (IZR n)) (s n) = Cmult (RtoC (alpha / 2)) (Cplus (Cmult (cis psi) (s (n - 1)%Z)) (Cmult (cis (- psi)) (s (n + 1)%Z)))).
  { intros n. unfold s. assert (R := J_recZ n alpha). rewrite minus_IZR, plus_IZR. replace ((IZR n - 1) * psi) with (IZR n * psi + - psi) by ring. replace ((IZR n + 1) * psi) with (IZR n * psi + psi) by ring. rewrite !cis_add.
    transitivity (Cmult (RtoC (alpha / 2 * (besselZ besselJ (n - 1) alpha + besselZ besselJ (n + 1) alpha))) (cis (IZR n * psi))).
    - rewrite Cmult_assoc, <- RtoC_mult. do 2 f_equal. lra.
    - assert (I1 := cis_inv psi). rewrite RtoC_mult, RtoC_plus. replace (Cplus (Cmult (cis psi) (Cmult (RtoC (besselZ besselJ (n - 1) alpha)) (Cmult (cis (IZR n * psi)) (cis (- psi))))) (Cmult (cis (- psi)) (Cmult (RtoC (besselZ besselJ (n + 1) alpha)) (Cmult (cis (IZR n * psi)) (cis psi))))) with
        (Cmult (Cmult (cis (- psi)) (cis psi)) (Cmult (Cplus (RtoC (besselZ besselJ (n - 1) alpha)) (RtoC (besselZ besselJ (n + 1) alpha))) (cis (IZR n * psi)))) by ring. rewrite I1. ring. }
  rewrite (csum_ext _ _ _ (fun n _ => REC n)). rewrite csum_scal_l, csum_plus, !csum_scal_l.
  assert (SH1 : csum (sym b) (fun n => s (n - 1)%Z) = Cplus (csum (sym b) s) (Cminus (s (- Z.of_nat b - 1)%Z) (s (Z.of_nat b)))).
  { clear. induction b as [|b IH]. { change (sym 0) with [0%Z]. cbn [csum]. replace (- Z.of_nat 0 - 1)%Z with (0 - 1)%Z by lia. replace (- Z.of_nat 0)%Z with 0%Z by lia. change (Z.of_nat 0) with 0%Z. ring. } rewrite !sym_S. cbn [csum]. rewrite !csum_app. cbn [csum]. rewrite IH. replace (Z.of_nat (S b) - 1)%Z with (Z.of_nat b) by lia. replace (- Z.of_nat b - 1)%Z with (- Z.of_nat (S b))%Z by lia. ring. }
  assert (SH2 : csum (sym b) (fun n => s (n + 1)%Z) = Cplus (csum (sym b) s) (Cminus (s (Z.of_nat b + 1)%Z) (s (- Z.of_nat b)%Z))).
  { clear. induction b as [|b IH]. { change (sym 0) with [0%Z]. cbn [csum]. replace (- Z.of_nat 0 - 1)%Z with (0 - 1)%Z by lia. replace (- Z.of_nat 0)%Z with 0%Z by lia. change (Z.of_nat 0) with 0%Z. ring. } rewrite !sym_S. cbn [csum]. rewrite !csum_app. cbn [csum]. rewrite IH. replace (- Z.of_nat (S b) + 1)%Z with (- Z.of_nat b)%Z by lia. replace (Z.of_nat b + 1)%Z with (Z.of_nat (S b)) by lia. ring. }
  rewrite SH1, SH2. assert (JA := jacobi_anger_expansion b alpha psi q Q). fold s in JA. set (S := csum (sym b) s) in *.
  assert (BS : forall n, (b <= Z.abs_nat n)%nat -> Cmod (s n) <= decay alpha q * q ^ b). { intros n Hn. unfold s. rewrite Cmod_mult, Cmod_cis, Cmod_R, Rmult_1_r. eapply Rle_trans; [apply (JZ_decay alpha alpha q n); lra|]. apply Rmult_le_compat_l; [left; apply decay_pos|]. now apply pow_decr. }
  assert (E1 := BS (- Z.of_nat b - 1)%Z ltac:(lia)). assert (E2 := BS (Z.of_nat b) ltac:(lia)). assert (E3 := BS (Z.of_nat b + 1)%Z ltac:(lia)). assert (E4 := BS (- Z.of_nat b)%Z ltac:(lia)).
  assert (CS : Cplus (cis psi) (cis (- psi)) = RtoC (2 * cos psi)). { unfold cis, Cplus, RtoC. cbn [fst snd]. rewrite cos_neg, sin_neg. f_equal; ring. }
  match goal with |- Cmod ?z <= _ => replace z with (Cplus (Cmult (RtoC (alpha * cos psi)) (Cminus S (cis (alpha * sin psi)))) (Cmult (RtoC (alpha / 2)) (Cplus (Cmult (cis psi) (Cminus (s (- Z.of_nat b - 1)%Z) (s (Z.of_nat b)))) (Cmult (cis (- psi)) (Cminus (s (Z.of_nat b + 1)%Z) (s (- Z.of_nat b)%Z)))))) end.
  2:{ replace (RtoC (alpha * cos psi)) with (Cmult (RtoC (alpha / 2)) (Cplus (cis psi) (cis (- psi)))). { ring. } rewrite CS, <- RtoC_mult. f_equal. field. }
  eapply Rle_trans; [apply Cmod_triangle|]. rewrite Rmult_plus_distr_r. apply Rplus_le_compat.
  - rewrite Cmod_mult, Cmod_R, Rabs_mult, Rmult_assoc. assert (CL := cos_le_1 psi). assert (A0 := Rabs_pos alpha). assert (C0 := Rabs_pos (cos psi)). rewrite Rmult_assoc. apply Rmult_le_compat_l; [assumption|]. assert (M0 := Cmod_ge_0 (Cminus S (cis (alpha * sin psi)))). nra.
  - rewrite Cmod_mult, Cmod_R. unfold Rdiv. rewrite Rabs_mult, (Rabs_pos_eq (/ 2)) by lra. assert (A0 := Rabs_pos alpha).
    assert (T : Cmod (Cplus (Cmult (cis psi) (Cminus (s (- Z.of_nat b - 1)%Z) (s (Z.of_nat b)))) (Cmult (cis (- psi)) (Cminus (s (Z.of_nat b + 1)%Z) (s (- Z.of_nat b)%Z)))) <= 4 * (decay alpha q * q ^ b)).
    { eapply Rle_trans; [apply Cmod_triangle|]. rewrite !Cmod_mult, !Cmod_cis, !Rmult_1_l. assert (T1 := Cmod_triangle (s (- Z.of_nat b - 1)%Z) (Copp (s (Z.of_nat b)))). assert (T2 := Cmod_triangle (s (Z.of_nat b + 1)%Z) (Copp (s (- Z.of_nat b)%Z))). rewrite Cmod_opp in T1, T2. unfold Cminus. lra. }
    nra.
Qed.
Lemma slopes_bound alpha phi p x : Rabs (slopes alpha phi p x) <= rsum (seq 1 p) (fun m => INR m * Rabs (alpha m)).
Proof.
  induction p as [|p IH]. { cbn. rewrite Rabs_R0. lra. } rewrite seq_S. cbn [slopes Nat.add]. rewrite rsum_app. cbn [rsum]. eapply Rle_trans; [apply Rabs_triang|]. rewrite !Rabs_mult. rewrite (Rabs_pos_eq (INR (S p))) by apply pos_INR.
  assert (CL := cos_le_1 (INR (S p) * x - phi (S p))). assert (0 <= INR (S p) * Rabs (alpha (S p))) by (apply Rmult_le_pos; [apply pos_INR|apply Rabs_pos]). assert (C0 := Rabs_pos (cos (INR (S p) * x - phi (S p)))). nra.
Qed.
Theorem moment_series alpha phi p q : (1 <= p)%nat -> 0 < q <= 1 -> exists K, 0 <= K /\ forall B b n W x, (n <= b)%nat -> (n <= B)%nat -> (n <= W)%nat ->
  Cmod (Cminus (trig W (tilt (phase_factor B b (fun p => jacobi_anger besselJ (alpha p) (phi p)) p)) x) (Cmult (RtoC (slopes alpha phi p x)) (cis (phases alpha phi p x)))) <= K * q ^ n.
Proof.
  intros P Q. set (A := fun p => jacobi_anger besselJ (alpha p) (phi p)). assert (HA : forall p, (1 <= p)%nat -> rapid (A p)) by (intros; apply rapid_bessel).
  assert (Q2 : 0 < q * / 2 * / 2 <= 1) by lra. assert (QH : 0 < q * / 2) by lra.
  induction P as [|p P [K [K0 IH]]].
  - destruct (dominated A HA 1 (q * / 2 * / 2) (le_n 1) Q2) as [K [K0 HK]]. set (D := Rabs (alpha 1%nat) * (4 * Rabs (alpha 1%nat) * decay (alpha 1%nat) q) + 2 * Rabs (alpha 1%nat) * decay (alpha 1%nat) q). assert (D0 : 0 <= D). { unfold D. pose proof (Rabs_pos (alpha 1%nat)). pose proof (decay_pos (alpha 1%nat) q). assert (0 <= Rabs (alpha 1%nat) * decay (alpha 1%nat) q) by nra. nra. }
    exists (3 * K + D). split; [lra|]. intros B b n W x L1 L2 L3. set (F := phase_factor B b A 1). set (V := Cmult (RtoC (slopes alpha phi 1 x)) (cis (phases alpha phi 1 x))).
    replace (Cminus (trig W (tilt F) x) V) with (Cplus (Cminus (trig W (tilt F) x) (trig b (tilt F) x)) (Cminus (trig b (tilt F) x) V)) by ring.
    eapply Rle_trans; [apply Cmod_triangle|]. rewrite Rmult_plus_distr_r. apply Rplus_le_compat. { apply trig_close; auto. apply tilt_decay; try assumption. apply HK. }
    unfold V. cbn [phases slopes]. rewrite !Rplus_0_l. change (INR 1) with 1. rewrite !Rmult_1_l. replace (trig b (tilt F) x) with (trig b (tilt (A 1%nat)) x).
    2:{ unfold trig, F, tilt. apply csum_ext. intros k Hk. rewrite phase_factor_1, cut_in by now apply in_sym. reflexivity. }
    eapply Rle_trans; [now apply (one_moment (alpha 1%nat) (phi 1%nat) b x q)|]. fold D. apply Rmult_le_compat_l; [assumption|]. now apply pow_decr.
  - destruct (dominated A HA (S p) (q * / 2 * / 2) ltac:(lia) Q2) as [KC [KC0 HK]]. destruct (phase_factor_series alpha phi p q P Q) as [KP [KP0 HP]]. set (al := alpha (S p)).
    set (D := 4 * Rabs al * decay al q). assert (D0 : 0 <= D). { unfold D. apply Rmult_le_pos; [pose proof (Rabs_pos al); lra|left; apply decay_pos]. }
    set (D1 := Rabs al * (4 * Rabs al * decay al q) + 2 * Rabs al * decay al q). assert (D10 : 0 <= D1). { unfold D1. pose proof (Rabs_pos al). pose proof (decay_pos al q). assert (0 <= Rabs al * decay al q) by nra. nra. }
    set (SB := rsum (seq 1 p) (fun m => INR m * Rabs (alpha m))). assert (SB0 : 0 <= SB). { apply rsum_nonneg. intros m _. apply Rmult_le_pos; [apply pos_INR|apply Rabs_pos]. }
    set (r := INR (S p)). assert (R0 : 0 <= r) by apply pos_INR.
    exists (3 * KC + (K * (1 + D) + SB * D + (KP * (r * (Rabs al + D1)) + r * D1))). split.
    { assert (0 <= K * (1 + D)) by nra. assert (0 <= SB * D) by nra. assert (0 <= r * (Rabs al + D1)) by (pose proof (Rabs_pos al); nra). assert (0 <= KP * (r * (Rabs al + D1))) by nra. assert (0 <= r * D1) by nra. lra. }
    intros B b n W x L1 L2 L3. set (N := Nat.max W (B + S p * b)). set (F := phase_factor B b A (S p)). set (V := Cmult (RtoC (slopes alpha phi (S p) x)) (cis (phases alpha phi (S p) x))).
    replace (Cminus (trig W (tilt F) x) V) with (Cplus (Cminus (trig W (tilt F) x) (trig N (tilt F) x)) (Cminus (trig N (tilt F) x) V)) by ring.
    eapply Rle_trans; [apply Cmod_triangle|]. rewrite Rmult_plus_distr_r. apply Rplus_le_compat. { apply trig_close; auto; [|unfold N; lia]. apply tilt_decay; try assumption. apply HK. }
    unfold F. rewrite (tilt_product B b A p N x) by (unfold N; lia). unfold V. cbn [phases slopes]. rewrite cis_add. fold r. fold al.
    set (y := trig b (A (S p)) (r * x)). set (y' := cis (al * sin (r * x - phi (S p)))). set (z := trig B (phase_factor B b A p) x). set (z' := cis (phases alpha phi p x)). set (d := trig B (tilt (phase_factor B b A p)) x). set (m := trig b (tilt (A (S p))) (r * x)). set (m' := Cmult (RtoC (al * cos (r * x - phi (S p)))) y').
    set (s := slopes alpha phi p x).
    assert (QB : q ^ b <= q ^ n) by now apply pow_decr. assert (QN : 0 < q ^ n) by (apply pow_lt; lra). assert (QN1 : q ^ n <= 1) by now apply pow_le_1.
    assert (HZ : Cmod (Cminus z z') <= KP * q ^ n) by (apply HP; lia). assert (HD : Cmod (Cminus d (Cmult (RtoC s) z')) <= K * q ^ n) by (apply IH; lia).
    assert (HY : Cmod (Cminus y y') <= D * q ^ n). { eapply Rle_trans; [now apply (one_harmonic al (phi (S p)) (S p) b x q)|]. fold D. now apply Rmult_le_compat_l. }
    assert (HM : Cmod (Cminus m m') <= D1 * q ^ n). { eapply Rle_trans; [now apply (one_moment al (phi (S p)) b (r * x) q)|]. fold D1. now apply Rmult_le_compat_l. }
    assert (Z1 : Cmod z' = 1) by apply Cmod_cis. assert (Y1' : Cmod y' = 1) by apply Cmod_cis. assert (Y1 : Cmod y <= 1 + D). { replace y with (Cplus y' (Cminus y y')) by ring. eapply Rle_trans; [apply Cmod_triangle|]. rewrite Y1'. nra. }
    assert (M1' : Cmod m' <= Rabs al). { unfold m'. rewrite Cmod_mult, Cmod_R, Y1', Rabs_mult. assert (C := cos_le_1 (r * x - phi (S p))). pose proof (Rabs_pos al). nra. }
    assert (M1 : Cmod m <= Rabs al + D1). { replace m with (Cplus m' (Cminus m m')) by ring. eapply Rle_trans; [apply Cmod_triangle|]. nra. }
    assert (S1 : Rabs s <= SB) by apply slopes_bound.
    match goal with |- Cmod ?zz <= _ => replace zz with (Cplus (Cplus (Cmult (Cminus d (Cmult (RtoC s) z')) y) (Cmult (Cmult (RtoC s) z') (Cminus y y'))) (Cplus (Cmult (Cminus z z') (Cmult (RtoC r) m)) (Cmult z' (Cmult (RtoC r) (Cminus m m'))))) end.
    2:{ unfold m' at 1. rewrite RtoC_plus. replace (RtoC (r * al * cos (r * x - phi (S p)))) with (Cmult (RtoC r) (RtoC (al * cos (r * x - phi (S p))))) by (rewrite <- RtoC_mult; f_equal; ring). ring. }
    assert (ABS : forall u v w u' : C, Cmod (Cplus (Cplus u v) (Cplus w u')) <= Cmod u + Cmod v + (Cmod w + Cmod u')). { intros. eapply Rle_trans; [apply Cmod_triangle|]. apply Rplus_le_compat; apply Cmod_triangle. }
    eapply Rle_trans; [apply ABS|]. rewrite !Cmod_mult, !Cmod_R, Z1, (Rabs_pos_eq r) by assumption.
    assert (X1 := Cmod_ge_0 (Cminus d (Cmult (RtoC s) z'))). assert (X2 := Cmod_ge_0 (Cminus y y')). assert (X3 := Cmod_ge_0 (Cminus z z')). assert (X4 := Cmod_ge_0 (Cminus m m')). assert (X5 := Cmod_ge_0 y). assert (X6 := Cmod_ge_0 m). assert (X7 := Rabs_pos s).
    assert (T1 : Cmod (Cminus d (Cmult (RtoC s) z')) * Cmod y <= K * q ^ n * (1 + D)) by (apply Rmult_le_compat; assumption).
    assert (T2 : Rabs s * 1 * Cmod (Cminus y y') <= SB * (D * q ^ n)). { rewrite Rmult_1_r. apply Rmult_le_compat; assumption. }
    assert (T3 : Cmod (Cminus z z') * (r * Cmod m) <= KP * q ^ n * (r * (Rabs al + D1))). { apply Rmult_le_compat; try assumption; [now apply Rmult_le_pos|]. now apply Rmult_le_compat_l. }
    assert (T4 : 1 * (r * Cmod (Cminus m m')) <= r * (D1 * q ^ n)). { rewrite Rmult_1_l. now apply Rmult_le_compat_l. } lra.
Qed.
