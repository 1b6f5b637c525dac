(** Photon steps of a pumped ideal junction. *)
From Coq Require Import List ZArith Lia Bool Arith Reals Lra.
From Coquelicot Require Import Complex.
From Verif Require Import Base Sums Bessel Model_QtCurrent Spec_QtCurrent Spec_QtApi Model_Tucker Spec_Power Spec_IVModels Spec_Steps Proof_QtApi Proof_QtApi2 Proof_QtWit Proof_Weights Proof_Power Proof_Power3 Proof_Small Proof_Classical.
Import ListNotations.
Open Scope R_scope.
Local Notation length := List.length.

Lemma passed_fun v k l : steps_passed v k -> steps_passed v l -> k = l.
Proof.
  intros (A1&A2&A3&A4&A5) (B1&B2&B3&B4&B5). destruct (Rlt_dec (Rabs v) 1) as [H|H]; [rewrite A1, B1 by exact H; reflexivity|].
  assert (H' : v <= - (1) \/ 1 <= v) by (unfold Rabs in H; destruct (Rcase_abs v); lra).
  destruct H' as [L|L]; destruct L as [L|L].
  - rewrite A5, B5 by exact L; reflexivity.
  - rewrite A3, B3 by exact L; reflexivity.
  - rewrite A4, B4 by lra; reflexivity.
  - rewrite A2, B2 by lra; reflexivity.
Qed.

Lemma step_cases v : v < - (1) \/ v = - (1) \/ Rabs v < 1 \/ v = 1 \/ 1 < v.
Proof. unfold Rabs; destruct (Rcase_abs v); lra. Qed.
Lemma big_neg v : v < - (1) -> 1 < Rabs v.
Proof. intros. rewrite Rabs_left; lra. Qed.
Lemma big_pos v : 1 < v -> 1 < Rabs v.
Proof. intros. rewrite Rabs_right; lra. Qed.
Lemma at_neg v : v = - (1) -> Rabs v = 1.
Proof. intros. rewrite Rabs_left; lra. Qed.
Lemma at_pos v : v = 1 -> Rabs v = 1.
Proof. intros. rewrite Rabs_right; lra. Qed.

(** The ideal curve without its steps. *)
Lemma ideal_rest v i k : ideal v i -> steps_passed v k ->
  (v <= - (1) /\ i - k = v + 1) \/ (- (1) < v < 1 /\ i - k = 0) \/ (1 <= v /\ i - k = v - 1).
Proof.
  intros (H1&H2&H3) (H4&H5&H6&H7&H8). destruct (step_cases v) as [K|[K|[K|[K|K]]]].
  - left. rewrite (H8 K), (H3 (big_neg v K)). clear - K. lra.
  - left. rewrite (H6 K), (H2 (at_neg v K)). clear - K. lra.
  - right. left. rewrite (H1 K), (H4 K). apply Rabs_def2 in K. clear - K. lra.
  - right. right. rewrite (H5 K), (H2 (at_pos v K)). clear - K. lra.
  - right. right. rewrite (H7 K), (H3 (big_pos v K)). clear - K. lra.
Qed.

(** Away from its steps the ideal curve rises with slope 0 or 1. *)
Lemma ideal_rise x y ix iy kx ky : x <= y -> ideal x ix -> ideal y iy -> steps_passed x kx -> steps_passed y ky ->
  0 <= iy - ix - (ky - kx) <= y - x.
Proof.
  intros L A B C D. pose proof (ideal_rest x ix kx A C) as Px. pose proof (ideal_rest y iy ky B D) as Py. clear - L Px Py. lra.
Qed.

Lemma ideal_between x y ix iy k : ideal x ix -> ideal y iy -> steps_passed x k -> steps_passed y k ->
  iy - ix = (y - x) * (if Rlt_dec (Rabs x) 1 then 0 else 1).
Proof.
  intros A B C D. pose proof (ideal_rest x ix k A C) as Px. pose proof (ideal_rest y iy k B D) as Py.
  destruct C as (C1&C2&C3&C4&C5), D as (D1&D2&D3&D4&D5).
  assert (Q : (k = - (1) /\ x < - (1) /\ y < - (1)) \/ (x = y) \/ (k = 0 /\ Rabs x < 1 /\ Rabs y < 1) \/ (k = 1 /\ 1 < x /\ 1 < y)).
  { clear Px Py A B.
    destruct (step_cases x) as [K|[K|[K|[K|K]]]]; [pose proof (C5 K) as E|pose proof (C3 K) as E|pose proof (C1 K) as E|pose proof (C2 K) as E|pose proof (C4 K) as E];
    (destruct (step_cases y) as [M|[M|[M|[M|M]]]]; [pose proof (D5 M) as F|pose proof (D3 M) as F|pose proof (D1 M) as F|pose proof (D2 M) as F|pose proof (D4 M) as F]);
    clear C1 C2 C3 C4 C5 D1 D2 D3 D4 D5; try (exfalso; clear - E F; lra); tauto || (right; left; congruence). }
  destruct Q as [(E&K&M)|[E|[(E&K&M)|(E&K&M)]]].
  - destruct (Rlt_dec (Rabs x) 1) as [W|W]; [pose proof (big_neg x K); clear - W H; lra|]. clear - Px Py K M. lra.
  - subst y. destruct (Rlt_dec (Rabs x) 1); clear - Px Py; lra.
  - destruct (Rlt_dec (Rabs x) 1) as [W|W]; [|contradiction]. apply Rabs_def2 in K, M. clear - Px Py K M. lra.
  - destruct (Rlt_dec (Rabs x) 1) as [W|W]; [pose proof (big_pos x K); clear - W H; lra|]. clear - Px Py K M. lra.
Qed.

Section Pumped.
Variables (vj : nat -> nat -> vec) (cct : qcct) (resp : R -> C) (b : nat) (alpha : R) (row : list R) (i j : nat).
Hypothesis (A : args_ok cct (NbInt b)) (F1 : q_num_f cct = 1%nat) (P1 : q_num_p cct = 1%nat) (Hf : / 10000 < q_freq cct 1).
Hypothesis (V : forall i, (i < q_npts cct)%nat -> vj 1%nat 1%nat i = RtoC (alpha * q_freq cct 1)).
Hypothesis (I : forall v, ideal v (Im (resp v))) (Hi : (i < q_npts cct)%nat) (Hj : (j < q_npts cct)%nat).
Hypothesis (E : qtcurrent besselJ vj cct resp (FScalar 0) (NbInt b) None = Ok (QReal row)).
Let f := q_freq cct 1.

Lemma row_at k : (k < q_npts cct)%nat -> nth k row 0 = rsum (sym b) (fun n => besselZ besselJ n alpha ^ 2 * Im (resp (q_vb cct k + IZR n * f))).
Proof.
  intros Hk. rewrite (tucker_dc vj cct resp b alpha row A F1 P1 Hf V E). unfold find_pumped_iv_curve.
  rewrite (nth_indep _ 0 (pumped_iv besselJ (fun v => Im (resp v)) (q_freq cct 1) alpha b 0)) by (rewrite map_length, tab_length; exact Hk).
  rewrite map_nth. rewrite tab_nth by exact Hk. rewrite pumped_sum. reflexivity.
Qed.

Lemma photon_steps ki kj : q_vb cct i <= q_vb cct j ->
  (forall n, (- Z.of_nat b <= n <= Z.of_nat b)%Z -> steps_passed (q_vb cct i + IZR n * f) (ki n)) ->
  (forall n, (- Z.of_nat b <= n <= Z.of_nat b)%Z -> steps_passed (q_vb cct j + IZR n * f) (kj n)) ->
  let S := zsum b (fun n => besselZ besselJ n alpha ^ 2 * (kj n - ki n)) in
  S <= nth j row 0 - nth i row 0 <= S + captured b alpha * (q_vb cct j - q_vb cct i).
Proof.
  intros L Ki Kj S. unfold S, captured. rewrite !zsum_rsum, !row_at by assumption. rewrite <- rsum_minus, (Rmult_comm (rsum _ _)), <- rsum_scal, <- rsum_plus.
  split; apply rsum_le; intros n Hn; apply in_sym in Hn; pose proof (pow2_ge_0 (besselZ besselJ n alpha)) as Q;
    pose proof (ideal_rise (q_vb cct i + IZR n * f) (q_vb cct j + IZR n * f) _ _ _ _ ltac:(lra) (I _) (I _) (Ki n Hn) (Kj n Hn)) as R; nra.
Qed.

Lemma photon_plateau k : 
  (forall n, (- Z.of_nat b <= n <= Z.of_nat b)%Z -> steps_passed (q_vb cct i + IZR n * f) (k n) /\ steps_passed (q_vb cct j + IZR n * f) (k n)) ->
  nth j row 0 - nth i row 0 = (q_vb cct j - q_vb cct i) * zsum b (fun n => besselZ besselJ n alpha ^ 2 * (if Rlt_dec (Rabs (q_vb cct i + IZR n * f)) 1 then 0 else 1)).
Proof.
  intros K. rewrite !zsum_rsum, !row_at by assumption. rewrite <- rsum_minus, <- rsum_scal.
  apply rsum_ext. intros n Hn. apply in_sym in Hn. destruct (K n Hn) as [Ki Kj].
  pose proof (ideal_between _ _ _ _ _ (I _) (I _) Ki Kj) as R. 
  rewrite <- Rmult_minus_distr_l, R. ring.
Qed.

(** One step crossed. *)
Lemma one_step n0 : (- Z.of_nat b <= n0 <= Z.of_nat b)%Z ->
  q_vb cct i + IZR n0 * f < 1 < q_vb cct j + IZR n0 * f -> - (1) < q_vb cct i + IZR n0 * f ->
  (forall n, (- Z.of_nat b <= n <= Z.of_nat b)%Z -> n <> n0 -> exists k, steps_passed (q_vb cct i + IZR n * f) k /\ steps_passed (q_vb cct j + IZR n * f) k) ->
  besselZ besselJ n0 alpha ^ 2 <= nth j row 0 - nth i row 0 <= besselZ besselJ n0 alpha ^ 2 + (q_vb cct j - q_vb cct i).
Proof.
  intros H0 [X1 X2] X3 K.
  set (st := fun v => if Rlt_dec (Rabs v) 1 then 0 else if Rlt_dec 1 v then 1 else if Rlt_dec v (- (1)) then - (1) else v / 2).
  assert (ST : forall v, steps_passed v (st v)).
  { intros v. unfold st, steps_passed. destruct (Rlt_dec (Rabs v) 1) as [B|B]; [unfold Rabs in B; destruct (Rcase_abs v); lra|].
    destruct (Rlt_dec 1 v); [lra|]. destruct (Rlt_dec v (- (1))); lra. }
  pose proof (photon_steps (fun n => st (q_vb cct i + IZR n * f)) (fun n => st (q_vb cct j + IZR n * f)) ltac:(lra) (fun n _ => ST _) (fun n _ => ST _)) as G. cbv beta zeta in G.
  assert (Z : zsum b (fun n => besselZ besselJ n alpha ^ 2 * (st (q_vb cct j + IZR n * f) - st (q_vb cct i + IZR n * f))) = besselZ besselJ n0 alpha ^ 2).
  { rewrite zsum_rsum. pose proof (rsum_sub_single b (fun n => besselZ besselJ n alpha ^ 2 * (st (q_vb cct j + IZR n * f) - st (q_vb cct i + IZR n * f))) (fun _ => 0) n0 (proj2 (in_sym b n0) H0)) as Q.
    cbv beta in Q. rewrite (rsum_zero (sym b) (fun _ => 0) (fun _ _ => eq_refl)) in Q.
    assert (S1 : st (q_vb cct j + IZR n0 * f) = 1) by (destruct (ST (q_vb cct j + IZR n0 * f)) as (_&_&_&S4&_); now apply S4).
    assert (S0 : st (q_vb cct i + IZR n0 * f) = 0) by (destruct (ST (q_vb cct i + IZR n0 * f)) as (S4&_); apply S4; apply Rabs_def1; lra).
    rewrite S1, S0 in Q. assert (Q' := Q ltac:(intros n Hn Hne; apply in_sym in Hn; destruct (K n Hn Hne) as [k [K1 K2]]; rewrite (passed_fun _ _ _ (ST _) K1), (passed_fun _ _ _ (ST _) K2); ring)). lra. }
  rewrite Z in G. pose proof (captured_bounds b alpha) as CB. split; [lra|]. nra.
Qed.
End Pumped.
