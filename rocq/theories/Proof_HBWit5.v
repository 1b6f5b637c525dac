(** A run with one correction, and an exact inverse that reads only the entries of its matrix. *)
From Coq Require Import List ZArith Lia Bool Arith Reals Lra String FunctionalExtensionality.
From Coquelicot Require Import Complex.
From Verif Require Import Base Sums Round Model_QtCurrent Spec_QtCurrent Spec_QtApi Proof_QtCurrent Proof_QtCurrent2 Proof_QtSym
  Proof_QtApi Proof_QtApi2 Proof_QtWit Model_Circuit Proof_Circuit Model_HB Spec_HB Spec_HB2 Proof_HB Proof_HB2 Proof_HB3 Proof_HB4 Proof_HB5 Proof_HBWit Proof_HBWit2 Proof_HB8.
Import ListNotations.
Local Notation length := List.length.
Open Scope C_scope.

Definition trim (n : nat) (M : nat -> nat -> R) (a b : nat) : R := if ((a <? n) && (b <? n))%nat then M a b else 0%R.
Definition trim_inv (n : nat) (M : nat -> nat -> R) : option (nat -> nat -> R) := exact_inv n (trim n M).
Lemma trim_in n M a b : (a < n)%nat -> (b < n)%nat -> trim n M a b = M a b.
Proof. intros Ha Hb. unfold trim. apply Nat.ltb_lt in Ha, Hb. now rewrite Ha, Hb. Qed.
Lemma rsum_to_ext n f g : (forall k, (k < n)%nat -> f k = g k) -> rsum_to n f = rsum_to n g.
Proof. induction n as [|n IH]; intros H; [reflexivity|]. cbn [rsum_to]. rewrite IH by (intros k Hk; apply H; lia). rewrite H by lia. reflexivity. Qed.
Lemma right_trim n M N : right_inverse n (trim n M) N <-> right_inverse n M N.
Proof.
  split; intros H a c Ha Hc; rewrite <- (H a c Ha Hc); apply rsum_to_ext; intros b Hb; now rewrite trim_in by assumption.
Qed.
Lemma trim_inverts : inverts trim_inv.
Proof.
  destruct exact_inv_inverts as [I1 I2]. split.
  - intros n M N H. apply right_trim. now apply I1.
  - intros n M [N H]. apply I2. exists N. now apply right_trim.
Qed.
Lemma trim_reads : reads_entries trim_inv.
Proof.
  intros n M M' H. unfold trim_inv. f_equal. extensionality a. extensionality b. unfold trim.
  destruct (Nat.ltb_spec a n) as [Ha|Ha], (Nat.ltb_spec b n) as [Hb|Hb]; cbn [andb]; try reflexivity. now apply H.
Qed.

(** Guess 5, source 1, no current: one correction. *)
Lemma one_correction_converged J inv : inverts inv -> exists v,
  r_ret (harmonic_balance J inv (w1 (RtoC 1) (RtoC 1)) no_resp (NbInt 1) 2 (/ 10 ^ 3) (Some (fun _ _ _ => RtoC 5)) 1 "x" (RtoC 1)) = Ok (RetX v 1 true) /\
  v 1%nat 1%nat 0%nat = RtoC 1.
Proof.
  intros Hinv. set (c := w1 (RtoC 1) (RtoC 1)). set (g := (fun _ _ _ => RtoC 5) : arr3).
  assert (Hs : simulates c (NbInt 1)) by (apply w1_simulates, one_neq0). pose proof Hs as [Ha [Hp [Hw Hz]]].
  destruct (one_correction J inv Hinv) as [v [o [rm [ER [Run V1]]]]]. fold c g in Run. change (wit_cct 1) with (h_q c) in ER.
  unfold hb_loop in Run. apply run_ended in Run; [|lia]. destruct Run as [m [M W]].
  set (vt := flat2 1 (clamp_vt (h_vt c))) in *. set (zt := flat2 1 (h_zt c)) in *. set (qt := qt_current_for_hb J (h_q c) no_resp (NbInt 1) (Some rm)) in *.
  change (q_num_f (h_q c) * q_num_p (h_q c))%nat with 1%nat in *. change (q_num_p (h_q c)) with 1%nat in *. change (q_npts (h_q c)) with 1%nat in *.
  assert (Res : forall w iw, qt w = Ok iw -> residual_at J (clamped c) no_resp (NbInt 1) (unflat 1 w) 1 1 0 = RtoC 1 - w 0%nat 0%nat).
  { intros w iw _. unfold c. rewrite w1_residual, (source_big _ big_1). reflexivity. }
  assert (Bal : forall w iw, qt w = Ok iw -> w 0%nat 0%nat = RtoC 1 -> xle_r (rel_max 1 1 vt zt iw w) (/ 10 ^ 3) = true).
  { intros w iw E Hw1. apply (rel_max_le_back J c no_resp (NbInt 1) rm Ha ER w iw (/ 10 ^ 3)); [simpl; lia|lra|exact E| |].
    - intros f p i Hsig Hi. apply w1_signal in Hsig. destruct Hsig as [-> ->]. change (q_npts (h_q c)) with 1%nat in Hi. assert (i = 0%nat) by lia. subst i. intros U. apply one_neq0. rewrite <- Hw1. exact U.
    - intros f p i Hsig Hi. apply w1_signal in Hsig. destruct Hsig as [-> ->]. change (q_npts (h_q (clamped c))) with 1%nat in Hi. assert (i = 0%nat) by lia. subst i.
      change (q_num_p (h_q c)) with 1%nat. rewrite (Res w iw E), Hw1. replace (RtoC 1 - RtoC 1) with (RtoC 0) by ring. rewrite Cmod_0.
      apply Rmult_le_pos; [lra|apply Cmod_ge_0]. }
  assert (Start : forall iw, qt (flat3 1 g) = Ok iw -> xle_r (rel_max 1 1 vt zt iw (flat3 1 g)) (/ 10 ^ 3) = true -> False).
  { intros iw E L. destruct (rel_max_le J c no_resp (NbInt 1) rm Ha ER (flat3 1 g) iw (/ 10 ^ 3) ltac:(simpl; lia) E L) as [T _].
    destruct (T 0%nat) as [_ T']; [simpl; lia|]. change (q_num_f (h_q c)) with 1%nat in T'. change (q_num_p (h_q c)) with 1%nat in T'. rewrite (Res _ iw E) in T'.
    change (unflat 1 (flat3 1 g) 1%nat 1%nat 0%nat) with (RtoC 5) in T'. change (flat3 1 g 0%nat 0%nat) with (RtoC 5) in T'.
    rewrite <- RtoC_minus, !Cmod_R in T'. rewrite (Rabs_pos_eq 5), (Rabs_left (1 - 5)) in T' by lra. lra. }
  assert (M1 : msteps 1 1 qt inv vt zt 1 1 (flat3 1 g) v).
  { assert (N0 : m <> 0%nat). { intros ->. inversion M; subst. apply (f_equal fst) in V1. cbn in V1. lra. }
    destruct (l_why o).
    - destruct W as [ij [mask [E1 [E2 _]]]]. assert (m = 1%nat) by lia. now subst m.
    - destruct W as [ij [mask [E1 [E2 _]]]]. assert (m = 1%nat) by lia. now subst m.
    - destruct W as [E1 E2]. assert (m = 2%nat) by lia. subst m. destruct E2 as [_ [u [ij [mask [_ [_ [E3 [E4 _]]]]]]]].
      exfalso. apply (rel_max_nan J c no_resp (NbInt 1) rm Ha ER u ij ltac:(simpl; lia) E3) in E4. destruct E4 as [i [Hi [U1 U2]]].
      change (q_npts (h_q c)) with 1%nat in Hi. assert (i = 0%nat) by lia. subst i. change (q_num_f (h_q c)) with 1%nat in *. change (q_num_p (h_q c)) with 1%nat in *.
      rewrite (Res u ij E3) in U2. change (unflat 1 u 1%nat 1%nat 0%nat) with (u 0%nat 0%nat) in U1. rewrite U1 in U2. apply (f_equal fst) in U2. cbn in U2. lra. }
  apply msteps_first in M1. destruct M1 as [v1 [[iv [js [E1 [E2 E3]]]] M1]]. assert (Ev : v = v1) by (inversion M1; reflexivity). clear M1. rewrite <- Ev in E3. clear Ev v1.
  destruct (qt_for_hb J (h_q c) no_resp (NbInt 1) rm v Ha ER) as [ij [E4 _]]. fold qt in E4.
  assert (L : exists o', hb_loop J inv c no_resp (NbInt 1) rm 2 (/ 10 ^ 3) 1 g = (v, Ok o') /\ l_iter o' = 1%Z).
  { unfold hb_loop. change (q_num_p (h_q c)) with 1%nat. fold qt vt zt. change (q_num_f (h_q c) * 1)%nat with 1%nat. change (q_npts (h_q c)) with 1%nat.
    unfold run_newton. change (zrange 0 (2 + 1)) with [0; 1; 2]%Z. cbn [newton]. rewrite E1. fold (rel_max 1 1 vt zt iv (flat3 1 g)).
    destruct (xle_r (rel_max 1 1 vt zt iv (flat3 1 g)) (/ 10 ^ 3)) eqn:X; [exfalso; now apply (Start iv)|].
    change (0 =? 2)%Z with false. rewrite andb_false_r. rewrite E2. rewrite <- E3. rewrite E4. fold (rel_max 1 1 vt zt ij v). rewrite (Bal v ij E4 V1).
    eexists. split; reflexivity. }
  destruct L as [o' [L I]]. destruct (hb_start J inv c no_resp (NbInt 1) 2 (/ 10 ^ 3) g 1 "x" (RtoC 1) rm _ _ Hz Hw ER L) as [S1 _].
  exists (unflat 1 v). split; [|exact V1]. transitivity (ret_of "x" 2 (unflat 1 v) o'); [exact S1|]. unfold ret_of. cbn [String.eqb Ascii.eqb Bool.eqb]. rewrite I. reflexivity.
Qed.

(** The same circuit at three bias points. *)
Definition w3 : hcct := {| h_q := {| q_num_f := 1; q_num_p := 1; q_npts := 3; q_freq := q_freq (wit_cct 1); q_vb := fun _ => q_vb (wit_cct 1) 0 |};
  h_vt := h_vt (w1 (RtoC 1) (RtoC 1)); h_zt := h_zt (w1 (RtoC 1) (RtoC 1)); h_wvt := true |}.
Lemma w3_picks : picks (fun _ => 0%nat) (w1 (RtoC 1) (RtoC 1)) w3.
Proof. repeat split; intros; simpl; try reflexivity; lia. Qed.
Lemma w3_simulates : simulates w3 (NbInt 1).
Proof.
  destruct (w1_simulates (RtoC 1) (RtoC 1) one_neq0) as [[A1 [A2 [A3 A4]]] [B [C D]]]. split; [|split; [simpl; lia|split; [reflexivity|exact D]]].
  split; [exact A1|split; [exact A2|split; [exact A3|exact A4]]].
Qed.
