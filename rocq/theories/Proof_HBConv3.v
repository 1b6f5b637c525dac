(** The circuit can be balanced, and harmonic_balance gets there, if the embedding impedances
    are small. *)
From Coq Require Import List ZArith Lia Bool Arith Reals Lra String.
From Coquelicot Require Import Coquelicot.
From Verif Require Import Base Sums Round Bessel Model_QtCurrent Spec_QtCurrent Spec_QtApi Proof_QtCurrent Proof_QtCurrent2 Proof_QtSym
  Proof_QtApi Proof_QtApi2 Model_Circuit Proof_Circuit Model_HB Spec_HB Spec_HBConv Proof_HB Proof_HB2 Proof_HB3 Proof_HB4 Proof_HB5 Proof_HB6 Proof_HBConv Proof_HBConv2 Proof_HBLip Proof_HBLip2.
Import ListNotations.
Local Notation length := List.length.
Open Scope R_scope.

(** ** Limits *)
Lemma rsum_to_lim n (a : nat -> nat -> R) : (forall j, (j < n)%nat -> is_lim_seq (a j) 0) -> is_lim_seq (fun m => rsum_to n (fun j => a j m)) 0.
Proof.
  induction n as [|n IH]; intros H; cbn [rsum_to]; [apply is_lim_seq_const|]. replace (Finite 0) with (Finite (0 + 0)) by (f_equal; ring).
  apply is_lim_seq_plus'; [apply IH; intros; apply H; lia|apply H; lia].
Qed.
Lemma total_lim q (a : nat -> nat -> nat -> R) : (forall f p, signal q f p -> is_lim_seq (a f p) 0) -> is_lim_seq (fun m => total q (fun f p => a f p m)) 0.
Proof.
  intros H. unfold total. apply (rsum_to_lim (q_num_f q) (fun f m => rsum_to (q_num_p q) (fun p => a (S f) (S p) m))). intros f Hf.
  apply (rsum_to_lim (q_num_p q) (fun p m => a (S f) (S p) m)). intros p Hp. apply H. split; lia.
Qed.
Lemma geometric_lim k D : 0 <= k < 1 -> is_lim_seq (fun n => k ^ n * D) 0.
Proof. intros K. replace (Finite 0) with (Finite (0 * D)) by (f_equal; ring). apply is_lim_seq_mult'; [|apply is_lim_seq_const]. apply is_lim_seq_geom. rewrite Rabs_pos_eq; lra. Qed.
Lemma steps_lim (a : nat -> R) k D : 0 <= k < 1 -> (forall n, Rabs (a (S n) - a n) <= k ^ n * D) -> ex_finite_lim_seq a.
Proof.
  intros K H. assert (S : ex_series (fun n => a (S n) - a n)).
  { apply (ex_series_le (V := R_CompleteNormedModule) (fun n => a (S n) - a n) (fun n => k ^ n * D)); [intros n; apply H|]. apply (ex_series_scal_r D (fun n => k ^ n)). apply ex_series_geom. rewrite Rabs_pos_eq; lra. }
  destruct S as [l Hl]. exists (l + a 0%nat). apply is_lim_seq_incr_1. apply is_lim_seq_ext with (fun n => sum_n (fun n => a (S n) - a n) n + a 0%nat).
  - intros n. induction n as [|n IH]; [rewrite sum_O; ring|]. rewrite sum_Sn. unfold plus; simpl. rewrite <- IH. ring.
  - apply is_lim_seq_plus'; [exact Hl|apply is_lim_seq_const].
Qed.

Section Exists.
Variable J : nat -> R -> R.
Variables (c : hcct) (resp : R -> C) (num_b : numb).
Local Notation q := (h_q c).
Variable k : R.
Hypothesis K : 0 <= k < 1.
Hypothesis F : follows J c resp num_b k.

(** Source voltage minus the voltage across the impedance. *)
Definition next (v : arr3) : arr3 := fun f p i => (h_vt c f p - h_zt c f p * current_at J q resp num_b v f p i)%C.
Fixpoint iter (n : nat) : arr3 := match n with O => fun f p _ => h_vt c f p | S n' => next (iter n') end.
Definition limit : arr3 := fun f p i => (real (Lim_seq (fun n => fst (iter n f p i))), real (Lim_seq (fun n => snd (iter n f p i)))).

Lemma next_distance v w i : (i < q_npts q)%nat -> distance q (next v) (next w) i <= k * distance q v w i.
Proof.
  intros I. eapply Rle_trans; [|apply (F v w i I)]. unfold distance. apply total_le. intros f p _. right. unfold next. rewrite <- Cmod_opp. f_equal. ring.
Qed.
Lemma iter_distance i n : (i < q_npts q)%nat -> distance q (iter (S n)) (iter n) i <= k ^ n * distance q (iter 1) (iter 0) i.
Proof.
  intros I. induction n as [|n IH]; [rewrite pow_O, Rmult_1_l; apply Rle_refl|]. eapply Rle_trans; [apply (next_distance (iter (S n)) (iter n) i I)|]. cbn [pow]. rewrite Rmult_assoc. apply Rmult_le_compat_l; [lra|exact IH].
Qed.
Lemma iter_lim f p i : signal q f p -> (i < q_npts q)%nat -> is_lim_seq (fun n => Cmod (iter n f p i - limit f p i)%C) 0.
Proof.
  intros SG I. assert (B : forall n, Cmod (iter (S n) f p i - iter n f p i)%C <= k ^ n * distance q (iter 1) (iter 0) i).
  { intros n. eapply Rle_trans; [|apply iter_distance, I]. apply (total_term q (fun f p => Cmod (iter (S n) f p i - iter n f p i)%C)); [intros; apply Cmod_ge_0|assumption]. }
  assert (L1 : is_lim_seq (fun n => fst (iter n f p i)) (fst (limit f p i))).
  { apply Lim_seq_correct'. apply (steps_lim _ k (distance q (iter 1) (iter 0) i) K). intros n. eapply Rle_trans; [|apply B]. destruct (part_le (iter (S n) f p i - iter n f p i)%C) as [P _]. exact P. }
  assert (L2 : is_lim_seq (fun n => snd (iter n f p i)) (snd (limit f p i))).
  { apply Lim_seq_correct'. apply (steps_lim _ k (distance q (iter 1) (iter 0) i) K). intros n. eapply Rle_trans; [|apply B]. destruct (part_le (iter (S n) f p i - iter n f p i)%C) as [_ P]. exact P. }
  assert (Z : forall (u : nat -> R) (l : R), is_lim_seq u l -> is_lim_seq (fun n => Rabs (u n - l)) 0).
  { intros u l L. apply (proj1 (is_lim_seq_abs_0 (fun n => u n - l))). replace (Finite 0) with (Finite (l - l)) by (f_equal; ring). apply is_lim_seq_minus'; [assumption|apply is_lim_seq_const]. }
  apply (is_lim_seq_le_le (fun _ => 0) _ (fun n => Rabs (fst (iter n f p i) - fst (limit f p i)) + Rabs (snd (iter n f p i) - snd (limit f p i)))).
  - intros n. split; [apply Cmod_ge_0|]. apply cmod_parts.
  - apply is_lim_seq_const.
  - replace (Finite 0) with (Finite (0 + 0)) by (f_equal; ring). apply is_lim_seq_plus'; apply Z; assumption.
Qed.
Lemma limit_solution : solution J c resp num_b limit.
Proof.
  intros f p i SG I. apply Cmod_eq_0. apply Rle_antisym; [|apply Cmod_ge_0].
  assert (D : is_lim_seq (fun n => distance q (iter n) limit i) 0) by (apply (total_lim q (fun f p n => Cmod (iter n f p i - limit f p i)%C)); intros; now apply iter_lim).
  apply (is_lim_seq_le (fun _ => Cmod (residual_at J c resp num_b limit f p i)) (fun n => k * distance q (iter n) limit i + distance q (iter (S n)) limit i) (Cmod (residual_at J c resp num_b limit f p i)) 0).
  - intros n. replace (residual_at J c resp num_b limit f p i) with ((next limit f p i - next (iter n) f p i) + (iter (S n) f p i - limit f p i))%C by (cbn [iter]; unfold next, residual_at; ring).
    eapply Rle_trans; [apply Cmod_triangle|]. apply Rplus_le_compat.
    + rewrite <- Cmod_opp. replace (- (next limit f p i - next (iter n) f p i))%C with (next (iter n) f p i - next limit f p i)%C by ring.
      eapply Rle_trans; [|apply next_distance, I]. apply (total_term q (fun f p => Cmod (next (iter n) f p i - next limit f p i)%C)); [intros; apply Cmod_ge_0|assumption].
    + apply (total_term q (fun f p => Cmod (iter (S n) f p i - limit f p i)%C)); [intros; apply Cmod_ge_0|assumption].
  - apply is_lim_seq_const.
  - replace (Finite 0) with (Finite (k * 0 + 0)) by (f_equal; ring). apply is_lim_seq_plus'; [apply (is_lim_seq_scal_l _ k 0 D)|]. apply is_lim_seq_incr_1 in D. exact D.
Qed.
Theorem solution_exists : exists s, solution J c resp num_b s.
Proof. exists limit. exact limit_solution. Qed.
End Exists.

(** ** Enough corrections *)
Lemma enough n (a : nat -> R) r e : 0 <= r < 1 -> 0 < e -> exists N, forall i, (i < n)%nat -> r ^ N * a i <= e.
Proof.
  intros R1 E. destruct (finite_bound n a) as [G [G0 HG]]. pose proof (geometric_lim r G R1) as L. apply is_lim_seq_spec in L. destruct (L (mkposreal e E)) as [N HN]. specialize (HN N (Nat.le_refl N)). cbn [pos] in HN.
  exists N. intros i Hi. assert (P : 0 <= r ^ N) by (apply pow_le; lra). specialize (HG i ltac:(lia)). rewrite Rminus_0_r in HN. apply Rabs_def2 in HN. nra.
Qed.

Lemma driven_solution J c resp num_b s : solution J (driven c) resp num_b s <-> solution J (clamped c) resp num_b s.
Proof.
  assert (E : forall f p i, signal (h_q c) f p -> residual_at J (driven c) resp num_b s f p i = residual_at J (clamped c) resp num_b s f p i).
  { intros f p i [S1 S2]. unfold residual_at. cbn [h_q h_vt h_zt driven clamped]. rewrite clamp_source by lia. reflexivity. }
  split; intros H f p i SG I; [rewrite <- E by exact SG|rewrite E by exact SG]; now apply H.
Qed.
Lemma driven_imbalance J c resp num_b v i : imbalance J (driven c) resp num_b v i = imbalance J (clamped c) resp num_b v i.
Proof. apply total_ext. intros f p [S1 S2]. f_equal. unfold residual_at. cbn [h_q h_vt h_zt driven clamped]. cbn [h_q driven] in S1, S2. rewrite clamp_source by lia. reflexivity. Qed.

(** What a run of enough iterations returns. *)
Theorem reaches J inv c resp num_b k s d vj0 zj mu stop : simulates c num_b -> inverts inv -> follows J c resp num_b k -> 0 <= k < 1 / 4 -> 0 < d <= 1 -> can_start c vj0 zj ->
  solution J (driven c) resp num_b s -> 0 < mu -> everywhere (h_q c) (fun f p i => mu <= Cmod (s f p i)) -> 0 < stop ->
  exists N, forall max_it, (Z.of_nat N < max_it)%Z -> let call := harmonic_balance J inv c resp num_b max_it stop vj0 d "x" zj in
    exists v m, r_ret call = Ok (RetX v (Z.of_nat m) true) /\ (m <= N)%nat /\ corrections J (r_cct call) resp num_b d m (start c vj0 zj) v.
Proof.
  intros HS INV F K D CS SOL MU HMU ST. apply driven_solution in SOL. destruct (left_over_bound k d K D) as [L0 L1].
  destruct (enough (q_npts (h_q c)) (imbalance J (clamped c) resp num_b (start c vj0 zj)) (left_over k d) (Rmin stop (1 - k) * (mu / 2))) as [N HN].
  { split; assumption. } { apply Rmult_lt_0_compat; [apply Rmin_pos; lra|lra]. }
  exists N. intros max_it HM call. unfold call. rewrite cct_after by apply (sim_parts c num_b HS). apply (run_converges J inv c resp num_b k (proj1 HS) INV F K d s vj0 zj (mu / 2) N HS D CS SOL); try assumption; [lra|].
  intros f p i S I. specialize (HMU f p i S I). cbv beta in HMU. lra.
Qed.

(** ** Small impedances *)
Lemma total_const q m : total q (fun _ _ => m) = m * total q (fun _ _ => 1).
Proof. rewrite <- total_scal. apply total_ext. intros; ring. Qed.

Theorem small_impedances q resp num_b : args_ok q num_b -> exists L, 0 < L /\ forall c, h_q c = q -> simulates c num_b ->
  (forall f p, signal q f p -> L * Cmod (h_zt c f p) <= 1 /\ L * Cmod (h_zt c f p) <= Cmod (source (h_vt c f p))) ->
  exists s, solution besselJ (driven c) resp num_b s /\ (forall s', solution besselJ (driven c) resp num_b s' -> agree q s s') /\
    forall inv d vj0 zj stop, inverts inv -> 0 < d <= 1 -> can_start c vj0 zj -> 0 < stop -> exists N, forall max_it, (Z.of_nat N < max_it)%Z ->
      exists v m, r_ret (harmonic_balance besselJ inv c resp num_b max_it stop vj0 d "x" zj) = Ok (RetX v (Z.of_nat m) true) /\ (m <= N)%nat.
Proof.
  intros Ha. destruct (current_lip q resp num_b Ha) as [L [L0 HL]]. set (n := total q (fun _ _ => 1)). assert (n0 : 0 <= n) by (apply total_ge0; intros; lra).
  exists (8 * (n + 1) * L). assert (P0 : 0 < 8 * (n + 1) * L) by (apply Rmult_lt_0_compat; [lra|assumption]). split; [assumption|]. intros c <- HS HZ.
  assert (Z0 : forall f p, 0 <= Cmod (h_zt c f p)) by (intros; apply Cmod_ge_0).
  assert (LZ : forall f p, signal (h_q c) f p -> (n + 1) * (L * Cmod (h_zt c f p)) <= 1 / 8 /\ (n + 1) * (L * Cmod (h_zt c f p)) <= Cmod (source (h_vt c f p)) / 8).
  { intros f p S. destruct (HZ f p S). split; lra. }
  assert (LP : forall f p, 0 <= L * Cmod (h_zt c f p)) by (intros; apply Rmult_le_pos; [lra|apply Z0]).
  assert (F : follows besselJ (clamped c) resp num_b (1 / 8)).
  { intros v w i I. cbn [h_q h_zt clamped] in *. set (D := distance (h_q c) v w i). assert (D0 : 0 <= D) by (apply total_ge0; intros; apply Cmod_ge_0).
    apply Rle_trans with (total (h_q c) (fun _ _ => 1 / (8 * (n + 1)) * D)).
    - apply total_le. intros f p S. rewrite Cmod_mult. destruct (HL v w f p i I) as [_ H]. fold D in H. destruct (LZ f p S) as [B _].
      apply Rle_trans with (Cmod (h_zt c f p) * (L * D)); [apply Rmult_le_compat_l; [apply Z0|assumption]|]. rewrite <- Rmult_assoc. apply Rmult_le_compat_r; [assumption|].
      apply Rmult_le_reg_l with (n + 1); [lra|]. replace ((n + 1) * (1 / (8 * (n + 1)))) with (1 / 8) by (field; lra). lra.
    - rewrite total_const. fold n. apply Rle_trans with (1 / (8 * (n + 1)) * D * (n + 1)); [apply Rmult_le_compat_l; [|lra]|right; field; lra].
      apply Rmult_le_pos; [|assumption]. apply Rmult_le_pos; [lra|]. apply Rlt_le, Rinv_0_lt_compat. lra. }
  destruct (solution_exists besselJ (clamped c) resp num_b (1 / 8) ltac:(lra) F) as [s SOL]. exists s. split; [now apply driven_solution|]. split.
  { intros s' SOL'. apply driven_solution in SOL'. exact (solution_unique besselJ (clamped c) resp num_b (1 / 8) F s s' ltac:(lra) SOL SOL'). }
  intros inv d vj0 zj stop INV D CS ST.
  destruct (reaches besselJ inv c resp num_b (1 / 8) s d vj0 zj (/ 10 ^ 10 / 2) stop HS INV F ltac:(lra) D CS (proj2 (driven_solution _ _ _ _ _) SOL)) as [N HN]; [|intros f p i S I|assumption|].
  - apply Rdiv_lt_0_compat; [apply Rinv_0_lt_compat, pow_lt|]; lra.
  - pose proof (SOL f p i S I) as E. unfold residual_at in E. cbn [h_q h_vt h_zt clamped] in E. destruct S as [S1 S2]. rewrite clamp_source in E by lia.
    destruct (LZ f p (conj S1 S2)) as [_ B]. destruct (HL s s f p i I) as [HI _]. assert (ES : source (h_vt c f p) = (s f p i + h_zt c f p * current_at besselJ (h_q c) resp num_b s f p i)%C).
    { transitivity ((source (h_vt c f p) - h_zt c f p * current_at besselJ (h_q c) resp num_b s f p i - s f p i) + (s f p i + h_zt c f p * current_at besselJ (h_q c) resp num_b s f p i))%C; [ring|]. rewrite E. ring. }
    assert (T := Cmod_triangle (s f p i) (h_zt c f p * current_at besselJ (h_q c) resp num_b s f p i)%C). rewrite <- ES, Cmod_mult in T.
    assert (ZI : Cmod (h_zt c f p) * Cmod (current_at besselJ (h_q c) resp num_b s f p i) <= L * Cmod (h_zt c f p)) by (rewrite Rmult_comm; apply Rmult_le_compat_r; [apply Z0|assumption]).
    assert (LB : L * Cmod (h_zt c f p) <= (n + 1) * (L * Cmod (h_zt c f p))) by (specialize (LP f p); nra).
    assert (SB : / 10 ^ 10 <= Cmod (source (h_vt c f p))). { unfold source. destruct (Rlt_dec _ _) as [_|G]; [rewrite Cmod_R; apply Rle_abs|lra]. } lra.
  - exists N. intros max_it HM. destruct (HN max_it HM) as [v [m [R1 [R2 _]]]]. eauto.
Qed.

(** ** How close the voltages of a converged run are to the solution *)
Theorem accurate J inv c resp num_b k s max_it stop vj0 d zj v it : simulates c num_b -> inverts inv -> follows J c resp num_b k -> 0 <= k < 1 -> solution J (driven c) resp num_b s -> (0 <= max_it)%Z ->
  r_ret (harmonic_balance J inv c resp num_b max_it stop vj0 d "x" zj) = Ok (RetX v it true) -> everywhere (h_q c) (fun f p i => v f p i <> RtoC 0) ->
  forall i, (i < q_npts (h_q c))%nat -> (1 - k) * distance (h_q c) v s i <= stop * total (h_q c) (fun f p => Cmod (v f p i)).
Proof.
  intros HS INV F K SOL HM R1 NZ i Hi. apply driven_solution in SOL.
  assert (B := converged_balanced J inv c resp num_b max_it stop vj0 d zj v it HS HM INV R1 ltac:(intros f p j S I [Z _]; exact (NZ f p j S I Z))). cbv zeta in B. rewrite cct_after in B by apply (sim_parts c num_b HS).
  eapply Rle_trans; [apply (near_solution J (clamped c) resp num_b k F v s i Hi K SOL)|]. rewrite <- total_scal. apply total_le. intros f p S. exact (B f p i S Hi).
Qed.

(** ** A junction that conducts like a unit resistor, behind a resistor of 1/10 *)
From Verif Require Import Proof_QtWit Proof_HBWit Proof_HBWit2 Proof_HBWit4.
Definition ohm (x : R) : C := (0, x).
Lemma ohm_current v : current_at J_lin (wit_cct 1) ohm (NbInt 1) v 1 1 0 = v 1%nat 1%nat 0%nat.
Proof.
  rewrite lin_current. unfold coeff. cbn [map forallb Z.eqb andb rs_sum t_b t_C]. change (sym 1) with [(-1)%Z; 0%Z; 1%Z]. cbn [csum dot].
  unfold cut. cbn [Z.add Z.opp Pos.add Z.pos_sub Z.abs Z.of_nat Pos.of_succ_nat Z.leb Z.compare Pos.compare Pos.compare_cont].
  unfold lin_coef, ohm. cbn [Z.eqb Pos.eqb]. destruct (v 1%nat 1%nat 0%nat) as [x y].
  unfold Re, Im, Cmult, Cplus, Cconj, Copp, RtoC, Ci. cbn [fst snd]. apply injective_projections; cbn [fst snd]; field.
Qed.
Definition wc : hcct := w1 (RtoC 1) (RtoC (1 / 10)).
Lemma tenth_neq0 : RtoC (1 / 10) <> RtoC 0.
Proof. intros H. apply (f_equal fst) in H. simpl in H. lra. Qed.
Lemma wc_simulates : simulates wc (NbInt 1). Proof. apply w1_simulates, tenth_neq0. Qed.
Lemma wc_total a : total (h_q wc) a = a 1%nat 1%nat.
Proof. unfold total, wc. cbn [h_q w1 wit_cct q_num_f q_num_p rsum_to]. ring. Qed.
Lemma wc_follows : follows J_lin wc ohm (NbInt 1) (1 / 10).
Proof.
  intros v w i Hi. change (q_npts (h_q wc)) with 1%nat in Hi. replace i with 0%nat by lia. unfold distance. rewrite !wc_total. unfold wc at 1 2 3. cbn [h_q h_zt w1 Nat.eqb andb]. rewrite !ohm_current, Cmod_mult, Cmod_R, Rabs_pos_eq; lra.
Qed.
Definition wc_solution : arr3 := fun _ _ _ => RtoC (10 / 11).
Lemma wc_solved : solution J_lin (driven wc) ohm (NbInt 1) wc_solution.
Proof.
  intros f p i S Hi. change (i < 1)%nat in Hi. replace i with 0%nat by lia. apply w1_signal in S. destruct S as [-> ->]. unfold residual_at, driven. cbn [h_q h_vt h_zt]. unfold wc. cbn [h_q h_vt h_zt w1 Nat.eqb andb]. rewrite ohm_current, source_big by apply big_1.
  unfold wc_solution. rewrite <- RtoC_mult, <- !RtoC_minus. f_equal. field.
Qed.
