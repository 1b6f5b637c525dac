(** The rounded sum over the products of the tones, the rounded convolution and the whole function. *)
From Coq Require Import List ZArith Lia Bool Arith Reals Lra Psatz Permutation.
From Coquelicot Require Import Rcomplements Complex.
From Verif Require Import Base Sums Round Model_QtCurrent Spec_QtCurrent Spec_QtApi Proof_QtCurrent Proof_QtCurrent2 Model_QtFloat Spec_QtFloat Proof_QtFloat Model_QtRound Spec_Rounding Proof_Round Proof_Round2.
Import ListNotations.
Local Notation length := List.length.
Open Scope Z_scope.

Lemma harm_length P : length (harm_range P) = (2 * P + 1)%nat.
Proof. unfold harm_range. rewrite rev_length, rng_sym. apply sym_length. Qed.
Lemma match_step (cond cond' : bool) (m : res vec) (t s : vec) K0 (cur : vec) :
  cond = cond' -> (exists v, m = Ok v /\ forall i, rel K0 (v i) (t i) (s i)) ->
  exists cur', (if cond then let* c := m in Ok (vadd_r cur c) else Ok cur) = Ok cur' /\
    step 1 K0 cur cur' (fun i => if cond' then t i else RtoC 0) (fun i => if cond' then s i else RtoC 0).
Proof.
  intros <- [v [E H]]. destruct cond.
  - rewrite E. cbn [bind]. eexists; split; [reflexivity|]. now apply step_add.
  - eexists; split; [reflexivity|]. apply step_skip; reflexivity.
Qed.

Section Match.
Variable ccc : carr.
Variable rm : respmat.
Variable freq : nat -> R.
Variable resp : R -> C.
Variable vb : nat -> R.
Variables P K : nat.
Variable w : fnum.
Hypothesis Hw : (Rabs (value w) <= 1000000)%R.
Hypothesis Cw : clear (value w).
Let ok n := (forall f, (1 <= f <= n)%nat -> (INR P * Rabs (freq f) <= 100000)%R) /\ (forall a, In a (index_vectors P n) -> clear (dot a (map freq (seq 1 n)))).

Lemma dec_1 a : ok 1 -> In a (harm_range P) ->
  Reqb (np_round4 (fmul a (freq 1%nat))) (value (round_f (round_f w))) = Reqb (round4 (IZR a * freq 1%nat)%R) (round4 (round4 (value w))).
Proof.
  intros O Ha. destruct (harm_err P freq a 1 1 O ltac:(lia) Ha) as [Ba Era].
  apply decision; [lra|lra| |assumption|assumption].
  replace (IZR a * freq 1%nat)%R with (dot [a] (map freq (seq 1 1))) by (cbn [map seq dot]; ring). apply O, (in_index P [a]).
  cbn [In]. intros x Hx. intuition (subst; assumption).
Qed.
Lemma dec_2 a b : ok 2 -> In a (harm_range P) -> In b (harm_range P) ->
  Reqb (np_round4 (fadd (fmul a (freq 1%nat)) (fmul b (freq 2%nat)))) (value (round_f (round_f w))) = Reqb (round4 (IZR a * freq 1%nat + IZR b * freq 2%nat)%R) (round4 (round4 (value w))).
Proof.
  intros O Ha Hb. destruct (harm_err P freq a 1 2 O ltac:(lia) Ha) as [Ba Era]. destruct (harm_err P freq b 2 2 O ltac:(lia) Hb) as [Bb Erb].
  assert (S2 : (Rabs (IZR a * freq 1%nat + IZR b * freq 2%nat) <= 200000)%R) by (apply Rabs_le_between in Ba, Bb; apply Rabs_le; lra).
  assert (E2 := fun X Y => fadd_err _ _ _ _ _ X Era Erb Y). specialize (E2 ltac:(lra) ltac:(lra)).
  apply decision; [lra|lra| |assumption|assumption].
  replace (IZR a * freq 1%nat + IZR b * freq 2%nat)%R with (dot [a; b] (map freq (seq 1 2))) by (cbn [map seq dot]; ring). apply O, (in_index P [a; b]).
  cbn [In]. intros x Hx. intuition (subst; assumption).
Qed.
Lemma dec_3 a b c : ok 3 -> In a (harm_range P) -> In b (harm_range P) -> In c (harm_range P) ->
  Reqb (np_round4 (fadd (fadd (fmul a (freq 1%nat)) (fmul b (freq 2%nat))) (fmul c (freq 3%nat)))) (value (round_f (round_f w))) = Reqb (round4 (IZR a * freq 1%nat + IZR b * freq 2%nat + IZR c * freq 3%nat)%R) (round4 (round4 (value w))).
Proof.
  intros O Ha Hb Hc. destruct (harm_err P freq a 1 3 O ltac:(lia) Ha) as [Ba Era]. destruct (harm_err P freq b 2 3 O ltac:(lia) Hb) as [Bb Erb]. destruct (harm_err P freq c 3 3 O ltac:(lia) Hc) as [Bc Erc].
  assert (S2 : (Rabs (IZR a * freq 1%nat + IZR b * freq 2%nat) <= 200000)%R) by (apply Rabs_le_between in Ba, Bb; apply Rabs_le; lra).
  assert (E2 := fun X Y => fadd_err _ _ _ _ _ X Era Erb Y). specialize (E2 ltac:(lra) ltac:(lra)).
  assert (S3 : (Rabs (IZR a * freq 1%nat + IZR b * freq 2%nat + IZR c * freq 3%nat) <= 300000)%R) by (apply Rabs_le_between in S2, Bc; apply Rabs_le; lra).
  assert (E3 := fun X Y => fadd_err _ _ _ _ _ X E2 Erc Y). specialize (E3 ltac:(lra) ltac:(lra)).
  apply decision; [lra|lra| |assumption|assumption].
  replace (IZR a * freq 1%nat + IZR b * freq 2%nat + IZR c * freq 3%nat)%R with (dot [a; b; c] (map freq (seq 1 3))) by (cbn [map seq dot]; ring). apply O, (in_index P [a; b; c]).
  cbn [In]. intros x Hx. intuition (subst; assumption).
Qed.
Lemma dec_4 a b c d : ok 4 -> In a (harm_range P) -> In b (harm_range P) -> In c (harm_range P) -> In d (harm_range P) ->
  Reqb (np_round4 (fadd (fadd (fadd (fmul a (freq 1%nat)) (fmul b (freq 2%nat))) (fmul c (freq 3%nat))) (fmul d (freq 4%nat)))) (value (round_f (round_f w))) = Reqb (round4 (IZR a * freq 1%nat + IZR b * freq 2%nat + IZR c * freq 3%nat + IZR d * freq 4%nat)%R) (round4 (round4 (value w))).
Proof.
  intros O Ha Hb Hc Hd. destruct (harm_err P freq a 1 4 O ltac:(lia) Ha) as [Ba Era]. destruct (harm_err P freq b 2 4 O ltac:(lia) Hb) as [Bb Erb]. destruct (harm_err P freq c 3 4 O ltac:(lia) Hc) as [Bc Erc]. destruct (harm_err P freq d 4 4 O ltac:(lia) Hd) as [Bd Erd].
  assert (S2 : (Rabs (IZR a * freq 1%nat + IZR b * freq 2%nat) <= 200000)%R) by (apply Rabs_le_between in Ba, Bb; apply Rabs_le; lra).
  assert (E2 := fun X Y => fadd_err _ _ _ _ _ X Era Erb Y). specialize (E2 ltac:(lra) ltac:(lra)).
  assert (S3 : (Rabs (IZR a * freq 1%nat + IZR b * freq 2%nat + IZR c * freq 3%nat) <= 300000)%R) by (apply Rabs_le_between in S2, Bc; apply Rabs_le; lra).
  assert (E3 := fun X Y => fadd_err _ _ _ _ _ X E2 Erc Y). specialize (E3 ltac:(lra) ltac:(lra)).
  assert (S4 : (Rabs (IZR a * freq 1%nat + IZR b * freq 2%nat + IZR c * freq 3%nat + IZR d * freq 4%nat) <= 400000)%R) by (apply Rabs_le_between in S3, Bd; apply Rabs_le; lra).
  assert (E4 := fun X Y => fadd_err _ _ _ _ _ X E3 Erd Y). specialize (E4 ltac:(lra) ltac:(lra)).
  apply decision; [lra|lra| |assumption|assumption].
  replace (IZR a * freq 1%nat + IZR b * freq 2%nat + IZR c * freq 3%nat + IZR d * freq 4%nat)%R with (dot [a; b; c; d] (map freq (seq 1 4))) by (cbn [map seq dot]; ring). apply O, (in_index P [a; b; c; d]).
  cbn [In]. intros x Hx. intuition (subst; assumption).
Qed.
Lemma rtones_1 b1 C1 M1 : ok 1 ->
  cc_rel ccc 1 b1 K C1 M1 -> rm_ok rm [b1] (vbdot vb resp [freq 1%nat]) ->
  exists v, current_1_tone_r (round_f w) ccc freq rm P b1 = Ok v /\
    forall i, rel ((2 * K + 2 + (2 * b1 + 1) * 1 + 1) + (2 * P + 1) ^ 1) (v i) (current P [Tone b1 (fun k => C1 k i)] [freq 1%nat] (vb i) resp (value w))
      (RtoC (current_size P [Tone b1 (fun k => M1 k i)] [freq 1%nat] (vb i) resp (value w))).
Proof.
  intros O H1 HR. unfold current_1_tone_r. cbv zeta. set (fs := [freq 1%nat]) in *. set (K0 := (2 * K + 2 + (2 * b1 + 1) * 1 + 1)%nat).
  set (ts := fun i => [Tone b1 (fun k => C1 k i)]). set (ms := fun i => [Tone b1 (fun k => M1 k i)]).
  set (T := fun a i => if Reqb (round4 (IZR a * freq 1%nat)%R) (round4 (round4 (value w))) then coeff (ts i) [a] (fun ks => vbdot vb resp fs ks i) else RtoC 0).
  set (U := fun a i => if Reqb (round4 (IZR a * freq 1%nat)%R) (round4 (round4 (value w))) then coeff_size (ms i) [a] (fun ks => rm_size (vbdot vb resp fs) ks i) else RtoC 0).
  match goal with |- context [foreach (harm_range P) ?f vzero] =>
    destruct (foreach_rsum (harm_range P) f 1%nat K0 (fun a i => T a i) (fun a i => U a i)) with (p := vzero) as (v & E & Hv) end.
  { intros a cur Ha.
    apply (match_step _ _ _ (fun i => coeff (ts i) [a] (fun ks => vbdot vb resp fs ks i)) (fun i => coeff_size (ms i) [a] (fun ks => rm_size (vbdot vb resp fs) ks i))).
    - apply dec_1; assumption.
    - apply rcoeff_1; assumption. }
  exists v. split; [exact E|]. intros i. assert (H0 := step_from_zero _ _ _ _ _ Hv i).
  assert (EY : csum (harm_range P) (fun a => T a i) = current P (ts i) fs (vb i) resp (value w)).
  { unfold current. replace (length (ts i)) with 1%nat by reflexivity. rewrite csum_harm, csum_index_S. apply csum_ext. intros a _. rewrite csum_index_0. unfold T. rewrite same_freq_Reqb, round4_idem. unfold fs. cbn [dot]. rewrite Rplus_0_r, ?Rplus_assoc. reflexivity. }
  assert (EZ : csum (harm_range P) (fun a => U a i) = csum (index_vectors P 1) (fun a => if same_freq (dot a fs) (value w) then coeff_size (ms i) a (fun ks => size (resp (vb i + dot ks fs)%R)) else RtoC 0)).
  { rewrite csum_harm, csum_index_S. apply csum_ext. intros a _. rewrite csum_index_0. unfold U. rewrite same_freq_Reqb, round4_idem. unfold fs. cbn [dot]. rewrite Rplus_0_r, ?Rplus_assoc. reflexivity. }
  cbv beta in H0. rewrite EY, EZ in H0. eapply rel_conv; [exact H0|reflexivity| |].
  - destruct H0 as (Hz & _). unfold current_size. fold (ms i). replace (length (ms i)) with 1%nat by reflexivity. set (z := csum _ _) in *. destruct z as [x y]. cbn [Im snd] in Hz. now subst y.
  - rewrite !harm_length. cbn [Nat.pow]. lia.
Qed.
Lemma rtones_2 b1 b2 C1 C2 M1 M2 : ok 2 ->
  cc_rel ccc 1 b1 K C1 M1 -> cc_rel ccc 2 b2 K C2 M2 -> rm_ok rm [b1; b2] (vbdot vb resp [freq 1%nat; freq 2%nat]) ->
  exists v, current_2_tones_r (round_f w) ccc freq rm P b1 b2 = Ok v /\
    forall i, rel ((4 * K + 4 + (2 * b1 + 1) * ((2 * b2 + 1) * 1) + 1) + (2 * P + 1) ^ 2) (v i) (current P [Tone b1 (fun k => C1 k i); Tone b2 (fun k => C2 k i)] [freq 1%nat; freq 2%nat] (vb i) resp (value w))
      (RtoC (current_size P [Tone b1 (fun k => M1 k i); Tone b2 (fun k => M2 k i)] [freq 1%nat; freq 2%nat] (vb i) resp (value w))).
Proof.
  intros O H1 H2 HR. unfold current_2_tones_r. cbv zeta. set (fs := [freq 1%nat; freq 2%nat]) in *. set (K0 := (4 * K + 4 + (2 * b1 + 1) * ((2 * b2 + 1) * 1) + 1)%nat).
  set (ts := fun i => [Tone b1 (fun k => C1 k i); Tone b2 (fun k => C2 k i)]). set (ms := fun i => [Tone b1 (fun k => M1 k i); Tone b2 (fun k => M2 k i)]).
  set (T := fun a b i => if Reqb (round4 (IZR a * freq 1%nat + IZR b * freq 2%nat)%R) (round4 (round4 (value w))) then coeff (ts i) [a; b] (fun ks => vbdot vb resp fs ks i) else RtoC 0).
  set (U := fun a b i => if Reqb (round4 (IZR a * freq 1%nat + IZR b * freq 2%nat)%R) (round4 (round4 (value w))) then coeff_size (ms i) [a; b] (fun ks => rm_size (vbdot vb resp fs) ks i) else RtoC 0).
  match goal with |- context [foreach (harm_range P) ?f vzero] =>
    destruct (foreach_rsum (harm_range P) f (length (harm_range P) * 1)%nat K0 (fun a i => csum (harm_range P) (fun b => T a b i)) (fun a i => csum (harm_range P) (fun b => U a b i))) with (p := vzero) as (v & E & Hv) end.
  { intros a cur Ha.
    apply (foreach_rsum (harm_range P) _ 1%nat K0 (fun b i => T a b i) (fun b i => U a b i)). clear cur. intros b cur Hb.
    apply (match_step _ _ _ (fun i => coeff (ts i) [a; b] (fun ks => vbdot vb resp fs ks i)) (fun i => coeff_size (ms i) [a; b] (fun ks => rm_size (vbdot vb resp fs) ks i))).
    - apply dec_2; assumption.
    - apply rcoeff_2; assumption. }
  exists v. split; [exact E|]. intros i. assert (H0 := step_from_zero _ _ _ _ _ Hv i).
  assert (EY : csum (harm_range P) (fun a => csum (harm_range P) (fun b => T a b i)) = current P (ts i) fs (vb i) resp (value w)).
  { unfold current. replace (length (ts i)) with 2%nat by reflexivity. rewrite csum_harm, csum_index_S. apply csum_ext. intros a _. rewrite csum_harm, csum_index_S. apply csum_ext. intros b _. rewrite csum_index_0. unfold T. rewrite same_freq_Reqb, round4_idem. unfold fs. cbn [dot]. rewrite Rplus_0_r, ?Rplus_assoc. reflexivity. }
  assert (EZ : csum (harm_range P) (fun a => csum (harm_range P) (fun b => U a b i)) = csum (index_vectors P 2) (fun a => if same_freq (dot a fs) (value w) then coeff_size (ms i) a (fun ks => size (resp (vb i + dot ks fs)%R)) else RtoC 0)).
  { rewrite csum_harm, csum_index_S. apply csum_ext. intros a _. rewrite csum_harm, csum_index_S. apply csum_ext. intros b _. rewrite csum_index_0. unfold U. rewrite same_freq_Reqb, round4_idem. unfold fs. cbn [dot]. rewrite Rplus_0_r, ?Rplus_assoc. reflexivity. }
  cbv beta in H0. rewrite EY, EZ in H0. eapply rel_conv; [exact H0|reflexivity| |].
  - destruct H0 as (Hz & _). unfold current_size. fold (ms i). replace (length (ms i)) with 2%nat by reflexivity. set (z := csum _ _) in *. destruct z as [x y]. cbn [Im snd] in Hz. now subst y.
  - rewrite !harm_length. cbn [Nat.pow]. lia.
Qed.
Lemma rtones_3 b1 b2 b3 C1 C2 C3 M1 M2 M3 : ok 3 ->
  cc_rel ccc 1 b1 K C1 M1 -> cc_rel ccc 2 b2 K C2 M2 -> cc_rel ccc 3 b3 K C3 M3 -> rm_ok rm [b1; b2; b3] (vbdot vb resp [freq 1%nat; freq 2%nat; freq 3%nat]) ->
  exists v, current_3_tones_r (round_f w) ccc freq rm P b1 b2 b3 = Ok v /\
    forall i, rel ((6 * K + 6 + (2 * b1 + 1) * ((2 * b2 + 1) * ((2 * b3 + 1) * 1)) + 1) + (2 * P + 1) ^ 3) (v i) (current P [Tone b1 (fun k => C1 k i); Tone b2 (fun k => C2 k i); Tone b3 (fun k => C3 k i)] [freq 1%nat; freq 2%nat; freq 3%nat] (vb i) resp (value w))
      (RtoC (current_size P [Tone b1 (fun k => M1 k i); Tone b2 (fun k => M2 k i); Tone b3 (fun k => M3 k i)] [freq 1%nat; freq 2%nat; freq 3%nat] (vb i) resp (value w))).
Proof.
  intros O H1 H2 H3 HR. unfold current_3_tones_r. cbv zeta. set (fs := [freq 1%nat; freq 2%nat; freq 3%nat]) in *. set (K0 := (6 * K + 6 + (2 * b1 + 1) * ((2 * b2 + 1) * ((2 * b3 + 1) * 1)) + 1)%nat).
  set (ts := fun i => [Tone b1 (fun k => C1 k i); Tone b2 (fun k => C2 k i); Tone b3 (fun k => C3 k i)]). set (ms := fun i => [Tone b1 (fun k => M1 k i); Tone b2 (fun k => M2 k i); Tone b3 (fun k => M3 k i)]).
  set (T := fun a b c i => if Reqb (round4 (IZR a * freq 1%nat + IZR b * freq 2%nat + IZR c * freq 3%nat)%R) (round4 (round4 (value w))) then coeff (ts i) [a; b; c] (fun ks => vbdot vb resp fs ks i) else RtoC 0).
  set (U := fun a b c i => if Reqb (round4 (IZR a * freq 1%nat + IZR b * freq 2%nat + IZR c * freq 3%nat)%R) (round4 (round4 (value w))) then coeff_size (ms i) [a; b; c] (fun ks => rm_size (vbdot vb resp fs) ks i) else RtoC 0).
  match goal with |- context [foreach (harm_range P) ?f vzero] =>
    destruct (foreach_rsum (harm_range P) f (length (harm_range P) * (length (harm_range P) * 1))%nat K0 (fun a i => csum (harm_range P) (fun b => csum (harm_range P) (fun c => T a b c i))) (fun a i => csum (harm_range P) (fun b => csum (harm_range P) (fun c => U a b c i)))) with (p := vzero) as (v & E & Hv) end.
  { intros a cur Ha.
    apply (foreach_rsum (harm_range P) _ (length (harm_range P) * 1)%nat K0 (fun b i => csum (harm_range P) (fun c => T a b c i)) (fun b i => csum (harm_range P) (fun c => U a b c i))). clear cur. intros b cur Hb.
    apply (foreach_rsum (harm_range P) _ 1%nat K0 (fun c i => T a b c i) (fun c i => U a b c i)). clear cur. intros c cur Hc.
    apply (match_step _ _ _ (fun i => coeff (ts i) [a; b; c] (fun ks => vbdot vb resp fs ks i)) (fun i => coeff_size (ms i) [a; b; c] (fun ks => rm_size (vbdot vb resp fs) ks i))).
    - apply dec_3; assumption.
    - apply rcoeff_3; assumption. }
  exists v. split; [exact E|]. intros i. assert (H0 := step_from_zero _ _ _ _ _ Hv i).
  assert (EY : csum (harm_range P) (fun a => csum (harm_range P) (fun b => csum (harm_range P) (fun c => T a b c i))) = current P (ts i) fs (vb i) resp (value w)).
  { unfold current. replace (length (ts i)) with 3%nat by reflexivity. rewrite csum_harm, csum_index_S. apply csum_ext. intros a _. rewrite csum_harm, csum_index_S. apply csum_ext. intros b _. rewrite csum_harm, csum_index_S. apply csum_ext. intros c _. rewrite csum_index_0. unfold T. rewrite same_freq_Reqb, round4_idem. unfold fs. cbn [dot]. rewrite Rplus_0_r, ?Rplus_assoc. reflexivity. }
  assert (EZ : csum (harm_range P) (fun a => csum (harm_range P) (fun b => csum (harm_range P) (fun c => U a b c i))) = csum (index_vectors P 3) (fun a => if same_freq (dot a fs) (value w) then coeff_size (ms i) a (fun ks => size (resp (vb i + dot ks fs)%R)) else RtoC 0)).
  { rewrite csum_harm, csum_index_S. apply csum_ext. intros a _. rewrite csum_harm, csum_index_S. apply csum_ext. intros b _. rewrite csum_harm, csum_index_S. apply csum_ext. intros c _. rewrite csum_index_0. unfold U. rewrite same_freq_Reqb, round4_idem. unfold fs. cbn [dot]. rewrite Rplus_0_r, ?Rplus_assoc. reflexivity. }
  cbv beta in H0. rewrite EY, EZ in H0. eapply rel_conv; [exact H0|reflexivity| |].
  - destruct H0 as (Hz & _). unfold current_size. fold (ms i). replace (length (ms i)) with 3%nat by reflexivity. set (z := csum _ _) in *. destruct z as [x y]. cbn [Im snd] in Hz. now subst y.
  - rewrite !harm_length. cbn [Nat.pow]. lia.
Qed.
Lemma rtones_4 b1 b2 b3 b4 C1 C2 C3 C4 M1 M2 M3 M4 : ok 4 ->
  cc_rel ccc 1 b1 K C1 M1 -> cc_rel ccc 2 b2 K C2 M2 -> cc_rel ccc 3 b3 K C3 M3 -> cc_rel ccc 4 b4 K C4 M4 -> rm_ok rm [b1; b2; b3; b4] (vbdot vb resp [freq 1%nat; freq 2%nat; freq 3%nat; freq 4%nat]) ->
  exists v, current_4_tones_r (round_f w) ccc freq rm P b1 b2 b3 b4 = Ok v /\
    forall i, rel ((8 * K + 8 + (2 * b1 + 1) * ((2 * b2 + 1) * ((2 * b3 + 1) * ((2 * b4 + 1) * 1))) + 1) + (2 * P + 1) ^ 4) (v i) (current P [Tone b1 (fun k => C1 k i); Tone b2 (fun k => C2 k i); Tone b3 (fun k => C3 k i); Tone b4 (fun k => C4 k i)] [freq 1%nat; freq 2%nat; freq 3%nat; freq 4%nat] (vb i) resp (value w))
      (RtoC (current_size P [Tone b1 (fun k => M1 k i); Tone b2 (fun k => M2 k i); Tone b3 (fun k => M3 k i); Tone b4 (fun k => M4 k i)] [freq 1%nat; freq 2%nat; freq 3%nat; freq 4%nat] (vb i) resp (value w))).
Proof.
  intros O H1 H2 H3 H4 HR. unfold current_4_tones_r. cbv zeta. set (fs := [freq 1%nat; freq 2%nat; freq 3%nat; freq 4%nat]) in *. set (K0 := (8 * K + 8 + (2 * b1 + 1) * ((2 * b2 + 1) * ((2 * b3 + 1) * ((2 * b4 + 1) * 1))) + 1)%nat).
  set (ts := fun i => [Tone b1 (fun k => C1 k i); Tone b2 (fun k => C2 k i); Tone b3 (fun k => C3 k i); Tone b4 (fun k => C4 k i)]). set (ms := fun i => [Tone b1 (fun k => M1 k i); Tone b2 (fun k => M2 k i); Tone b3 (fun k => M3 k i); Tone b4 (fun k => M4 k i)]).
  set (T := fun a b c d i => if Reqb (round4 (IZR a * freq 1%nat + IZR b * freq 2%nat + IZR c * freq 3%nat + IZR d * freq 4%nat)%R) (round4 (round4 (value w))) then coeff (ts i) [a; b; c; d] (fun ks => vbdot vb resp fs ks i) else RtoC 0).
  set (U := fun a b c d i => if Reqb (round4 (IZR a * freq 1%nat + IZR b * freq 2%nat + IZR c * freq 3%nat + IZR d * freq 4%nat)%R) (round4 (round4 (value w))) then coeff_size (ms i) [a; b; c; d] (fun ks => rm_size (vbdot vb resp fs) ks i) else RtoC 0).
  match goal with |- context [foreach (harm_range P) ?f vzero] =>
    destruct (foreach_rsum (harm_range P) f (length (harm_range P) * (length (harm_range P) * (length (harm_range P) * 1)))%nat K0 (fun a i => csum (harm_range P) (fun b => csum (harm_range P) (fun c => csum (harm_range P) (fun d => T a b c d i)))) (fun a i => csum (harm_range P) (fun b => csum (harm_range P) (fun c => csum (harm_range P) (fun d => U a b c d i))))) with (p := vzero) as (v & E & Hv) end.
  { intros a cur Ha.
    apply (foreach_rsum (harm_range P) _ (length (harm_range P) * (length (harm_range P) * 1))%nat K0 (fun b i => csum (harm_range P) (fun c => csum (harm_range P) (fun d => T a b c d i))) (fun b i => csum (harm_range P) (fun c => csum (harm_range P) (fun d => U a b c d i)))). clear cur. intros b cur Hb.
    apply (foreach_rsum (harm_range P) _ (length (harm_range P) * 1)%nat K0 (fun c i => csum (harm_range P) (fun d => T a b c d i)) (fun c i => csum (harm_range P) (fun d => U a b c d i))). clear cur. intros c cur Hc.
    apply (foreach_rsum (harm_range P) _ 1%nat K0 (fun d i => T a b c d i) (fun d i => U a b c d i)). clear cur. intros d cur Hd.
    apply (match_step _ _ _ (fun i => coeff (ts i) [a; b; c; d] (fun ks => vbdot vb resp fs ks i)) (fun i => coeff_size (ms i) [a; b; c; d] (fun ks => rm_size (vbdot vb resp fs) ks i))).
    - apply dec_4; assumption.
    - apply rcoeff_4; assumption. }
  exists v. split; [exact E|]. intros i. assert (H0 := step_from_zero _ _ _ _ _ Hv i).
  assert (EY : csum (harm_range P) (fun a => csum (harm_range P) (fun b => csum (harm_range P) (fun c => csum (harm_range P) (fun d => T a b c d i)))) = current P (ts i) fs (vb i) resp (value w)).
  { unfold current. replace (length (ts i)) with 4%nat by reflexivity. rewrite csum_harm, csum_index_S. apply csum_ext. intros a _. rewrite csum_harm, csum_index_S. apply csum_ext. intros b _. rewrite csum_harm, csum_index_S. apply csum_ext. intros c _. rewrite csum_harm, csum_index_S. apply csum_ext. intros d _. rewrite csum_index_0. unfold T. rewrite same_freq_Reqb, round4_idem. unfold fs. cbn [dot]. rewrite Rplus_0_r, ?Rplus_assoc. reflexivity. }
  assert (EZ : csum (harm_range P) (fun a => csum (harm_range P) (fun b => csum (harm_range P) (fun c => csum (harm_range P) (fun d => U a b c d i)))) = csum (index_vectors P 4) (fun a => if same_freq (dot a fs) (value w) then coeff_size (ms i) a (fun ks => size (resp (vb i + dot ks fs)%R)) else RtoC 0)).
  { rewrite csum_harm, csum_index_S. apply csum_ext. intros a _. rewrite csum_harm, csum_index_S. apply csum_ext. intros b _. rewrite csum_harm, csum_index_S. apply csum_ext. intros c _. rewrite csum_harm, csum_index_S. apply csum_ext. intros d _. rewrite csum_index_0. unfold U. rewrite same_freq_Reqb, round4_idem. unfold fs. cbn [dot]. rewrite Rplus_0_r, ?Rplus_assoc. reflexivity. }
  cbv beta in H0. rewrite EY, EZ in H0. eapply rel_conv; [exact H0|reflexivity| |].
  - destruct H0 as (Hz & _). unfold current_size. fold (ms i). replace (length (ms i)) with 4%nat by reflexivity. set (z := csum _ _) in *. destruct z as [x y]. cbn [Im snd] in Hz. now subst y.
  - rewrite !harm_length. cbn [Nat.pow]. lia.
Qed.
End Match.
