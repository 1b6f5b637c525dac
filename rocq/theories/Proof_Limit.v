(** The limit of the currents as the truncation grows. *)
From Coq Require Import List ZArith Bool Reals Lia Lra Psatz.
From Coquelicot Require Import Coquelicot.
From Verif Require Import Base Sums Round Bessel Model_QtCurrent Spec_QtCurrent Spec_QtApi Spec_Power Spec_Phase Proof_QtCurrent Proof_QtCurrent2 Proof_QtWit Proof_QtSym Proof_QtApi Proof_QtApi2 Proof_Power2 Proof_Bessel Proof_Weights Proof_Decay Proof_Converge Proof_JacobiAnger Proof_Phase Proof_Fourier Proof_Ohm Proof_Power4.
Import ListNotations.
Open Scope R_scope.
Local Notation length := List.length.
Local Notation Forall := List.Forall.

(** A real sequence whose members differ by at most K r^n from all later ones. *)
Lemma rate_limit (u : nat -> R) K r : 0 < r < 1 -> (forall n m, (n <= m)%nat -> Rabs (u m - u n) <= K * r ^ n) -> is_lim_seq u (real (Lim_seq u)).
Proof.
  intros R01 H. assert (E : ex_finite_lim_seq u).
  { apply ex_lim_seq_cauchy_corr. intros eps. assert (K0 : 0 <= K). { assert (X := H 0%nat 0%nat (le_n 0)). rewrite Rminus_diag_eq, Rabs_R0 in X by reflexivity. cbn in X. lra. }
    destruct (pow_lt_1_zero r ltac:(rewrite Rabs_pos_eq; lra) (eps / (2 * (K + 1)))) as [N HN]. { apply Rlt_gt, Rdiv_lt_0_compat; [apply eps|lra]. }
    exists N. intros n m Hn Hm. assert (X := H N n Hn). assert (Y := H N m Hm). assert (Z := HN N (le_n N)). rewrite Rabs_pos_eq in Z by (left; apply pow_lt; lra).
    assert (W : K * r ^ N < eps / 2). { apply Rle_lt_trans with ((K + 1) * r ^ N). { assert (0 < r ^ N) by (apply pow_lt; lra). nra. } apply Rlt_le_trans with ((K + 1) * (eps / (2 * (K + 1)))). { apply Rmult_lt_compat_l; lra. } right. field. lra. }
    replace (u n - u m) with ((u n - u N) + - (u m - u N)) by ring. eapply Rle_lt_trans; [apply Rabs_triang|]. rewrite Rabs_Ropp. lra. }
  destruct E as [x E]. now rewrite (is_lim_seq_unique _ _ E).
Qed.
Lemma limit_bound (u : nat -> R) (x X : R) (a : R) N : is_lim_seq u x -> (forall m, (N <= m)%nat -> Rabs (a - u m) <= X) -> Rabs (a - x) <= X.
Proof.
  intros L H. assert (LA : is_lim_seq (fun m => Rabs (a - u m)) (Rabs (a - x))). { apply (is_lim_seq_abs (fun m => a - u m) (Finite (a - x))). apply (is_lim_seq_minus' (fun _ => a) u a x); [apply is_lim_seq_const|exact L]. }
  assert (LE := is_lim_seq_le_loc (fun m => Rabs (a - u m)) (fun _ => X) (Rabs (a - x)) X). apply LE; [|exact LA|apply is_lim_seq_const]. exists N. exact H.
Qed.
Definition ideal (vj : nat -> nat -> vec) (cct : qcct) (resp : R -> C) (w : R) (i : nat) : C :=
  let u := fun n => current (q_num_p cct) (tones besselJ vj cct (NbInt n) i) (freqs cct) (q_vb cct i) resp w in
  (real (Lim_seq (fun n => Re (u n))), real (Lim_seq (fun n => Im (u n)))).
Lemma args_int cct num_b n : args_ok cct num_b -> args_ok cct (NbInt n).
Proof. intros (A & B & C & D). repeat split; try assumption; try apply A. Qed.
Lemma trunc_int cct n m : (n <= m)%nat -> Forall (le n) (truncations (NbInt m) (q_num_f cct)).
Proof. intros H. unfold truncations. cbn [nbtuple]. apply Forall_forall. intros x Hx. rewrite firstn_all2 in Hx by now rewrite repeat_length. apply repeat_spec in Hx. now subst x. Qed.
Theorem ideal_limit vj cct resp A B : 0 <= B -> (forall v, Cmod (resp v) <= A * exp (B * Rabs v)) ->
  exists L : R -> nat -> C, forall q, 0 < q -> exists K, 0 <= K /\ forall num_b n l rows i j, args_ok cct num_b -> Forall (le n) (truncations num_b (q_num_f cct)) ->
  qtcurrent besselJ vj cct resp (FList l) num_b None = Ok (QRows rows) -> (j < length l)%nat -> (i < q_npts cct)%nat ->
  Cmod (Cminus (nth i (nth j rows []) (RtoC 0)) (L (nth j l 0) i)) <= K * q ^ n.
Proof.
  intros B0 H. exists (ideal vj cct resp). intros q Q. destruct (le_lt_dec 1 (q_num_p cct)) as [P|P].
  2:{ exists 0. split; [lra|]. intros num_b n l rows i j (_ & X & _). lia. }
  set (r := Rmin q (/ 2)). assert (R01 : 0 < r < 1). { unfold r. split; [apply Rmin_pos; lra|]. eapply Rle_lt_trans; [apply Rmin_r|lra]. }
  destruct (finite_bound (seq 0 (q_npts cct)) (fun i K => forall num_b num_b' n w, args_ok cct num_b -> args_ok cct num_b' -> Forall (le n) (truncations num_b (q_num_f cct)) -> Forall (le n) (truncations num_b' (q_num_f cct)) ->
    Cmod (Cminus (current (q_num_p cct) (tones besselJ vj cct num_b i) (freqs cct) (q_vb cct i) resp w) (current (q_num_p cct) (tones besselJ vj cct num_b' i) (freqs cct) (q_vb cct i) resp w)) <= K * r ^ n)) as [K [K0 HK]].
  { intros i K K' _ L G num_b num_b' n w A1 A2 T T'. eapply Rle_trans; [exact (G num_b num_b' n w A1 A2 T T')|]. apply Rmult_le_compat_r; [left; apply pow_lt; lra|assumption]. }
  { intros i _. apply (point_converges vj cct resp A B); try assumption; lra. }
  exists (2 * K). split; [lra|]. intros num_b n l rows i j HA T E Hj Hi. apply qt_rows in E; [|assumption]. subst rows. rewrite (nth_mapped _ l j [] 0) by assumption. set (w := nth j l 0). unfold spec_row. rewrite nth_tab by assumption.
  assert (Hi' : In i (seq 0 (q_npts cct))) by (apply in_seq; lia). assert (G := HK i Hi'). clear HK.
  set (u := fun n => current (q_num_p cct) (tones besselJ vj cct (NbInt n) i) (freqs cct) (q_vb cct i) resp w). set (z := current _ _ _ _ _ _).
  assert (GU : forall n m, (n <= m)%nat -> Cmod (Cminus (u m) (u n)) <= K * r ^ n). { intros n' m L. apply G; try (eapply args_int; exact HA); apply trunc_int; lia. }
  assert (GZ : forall m, (n <= m)%nat -> Cmod (Cminus z (u m)) <= K * r ^ n). { intros m L. apply G; try assumption; [eapply args_int; exact HA|now apply trunc_int]. }
  assert (LR := rate_limit (fun n => Re (u n)) K r R01 (fun a b L => Rle_trans _ _ _ (Re_Cmod (Cminus (u b) (u a))) (GU a b L))).
  assert (LI := rate_limit (fun n => Im (u n)) K r R01 (fun a b L => Rle_trans _ _ _ (Im_Cmod (Cminus (u b) (u a))) (GU a b L))).
  assert (BR := limit_bound _ _ (K * r ^ n) (Re z) n LR (fun m L => Rle_trans _ _ _ (Re_Cmod (Cminus z (u m))) (GZ m L))).
  assert (BI := limit_bound _ _ (K * r ^ n) (Im z) n LI (fun m L => Rle_trans _ _ _ (Im_Cmod (Cminus z (u m))) (GZ m L))).
  change (ideal vj cct resp w i) with ((real (Lim_seq (fun n => Re (u n))), real (Lim_seq (fun n => Im (u n))))). destruct z as [x y]. unfold Cminus, Cplus, Copp. cbn [fst snd Re Im] in *.
  eapply Rle_trans; [apply Cmod_parts|]. unfold Rminus in BR, BI. apply Rle_trans with (2 * K * r ^ n); [lra|]. apply Rmult_le_compat_l; [lra|]. apply pow_incr. split; [lra|apply Rmin_l].
Qed.
(** The photon numbers of one tone have probabilities that add up to one. *)
Theorem photons_normal vj freq num_f num_p f i q : (1 <= num_p)%nat -> (1 <= f <= num_f)%nat -> 0 < q -> exists K, 0 <= K /\ forall num_b n ccc, (num_f <= length (nbtuple num_b num_f))%nat -> Forall (le n) (truncations num_b num_f) ->
  calculate_phase_factor_coeff besselJ vj freq num_f num_p num_b = Ok ccc ->
  Rabs (zsum (nth (f - 1) (nbtuple num_b num_f) O) (fun k => Cmod (coefficient ccc f k i) ^ 2) - 1) <= K * q ^ n.
Proof.
  intros P F Q0. set (r := Rmin q 1). assert (Q : 0 < r <= 1). { unfold r. split; [apply Rmin_pos; lra|apply Rmin_r]. }
  destruct (overlap_near (fun p => Cmod (vj f p i) / (INR p * freq f)) (fun p => angle (vj f p i)) num_p P r Q) as [K [K0 H]]. exists K. split; [assumption|]. intros num_b n ccc L T E.
  set (B := list_max (nbtuple num_b num_f)). set (b := nth (f - 1) (nbtuple num_b num_f) O). assert (X := H B b n 0%Z (at_least_nth _ _ _ _ T L F) (nb_le _ _)). apply Rle_trans with (K * r ^ n). 2:{ apply Rmult_le_compat_l; [assumption|]. apply pow_incr. split; [lra|apply Rmin_l]. }
  eapply Rle_trans; [|exact X]. eapply Rle_trans; [|apply Re_Cmod]. right. f_equal. unfold overlap, kron. cbn [t_b t_C Z.eqb]. set (c := phase_factor B b _ num_p).
  replace (Re (Cminus (csum (sym b) (fun k => Cmult (c k) (Cconj (cut b c (k + 0))))) (RtoC 1))) with (Re (csum (sym b) (fun k => Cmult (c k) (Cconj (cut b c (k + 0))))) - 1) by reflexivity.
  f_equal. rewrite Re_rsum. unfold zsum. rewrite fold_rsum. apply rsum_ext. intros k Hk. apply in_sym in Hk. rewrite Z.add_0_r, cut_in by lia.
  assert (Y := nb_le (nbtuple num_b num_f) (f - 1)). rewrite (coefficient_value besselJ vj freq num_f num_p num_b ccc f k i P L F E) by (fold b in Y; fold B; lia). fold B b. fold c. destruct (c k) as [x y]. unfold Cmod, Cmult, Cconj, Re. cbn [fst snd]. rewrite pow2_sqrt by nra. ring.
Qed.
