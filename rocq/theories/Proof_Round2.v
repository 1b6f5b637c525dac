(** The rounded loops of the current coefficients and of the sum over the products of tones. *)
From Coq Require Import List ZArith Lia Bool Arith Reals Lra Psatz Permutation.
From Coquelicot Require Import Rcomplements Complex.
From Verif Require Import Base Sums Round Model_QtCurrent Spec_QtCurrent Spec_QtApi Proof_QtCurrent Proof_QtCurrent2 Model_QtFloat Spec_QtFloat Proof_QtFloat Model_QtRound Spec_Rounding Proof_Round.
Import ListNotations.
Local Notation length := List.length.
Open Scope Z_scope.

Lemma sym_length b : length (sym b) = (2 * b + 1)%nat.
Proof. unfold sym. rewrite zrange_length. lia. Qed.
(** What the loops know about the arrays they read. *)
Definition cc_rel (ccc : carr) (f : Z) (b K : nat) (Cf Mf : Z -> vec) : Prop :=
  forall k, - Z.of_nat b <= k <= Z.of_nat b -> exists v, cc_get ccc f k = Ok v /\ forall i, rel K (v i) (Cf k i) (Mf k i).
Definition rm_size (rk : list Z -> vec) : list Z -> vec := fun ks i => size (rk ks i).
Ltac products := repeat first [apply rel_mul | apply rel_conj | eassumption | apply rel_exact].

Definition term_1 (b1 : nat) (C1 : Z -> C) (r : list Z -> C) (a k : Z) : C :=
  Cmult (Cmult (C1 k) (Cconj (cut b1 C1 (k + a)%Z))) ((r [k])).
Lemma rs_1 b1 C1 r a : rs_sum [Tone b1 C1] [a] r = csum (sym b1) (fun k => term_1 b1 C1 r a k).
Proof.
  cbn [rs_sum t_b t_C]. unfold term_1. reflexivity.
Qed.
Definition term_2 (b1 : nat) (b2 : nat) (C1 C2 : Z -> C) (r : list Z -> C) (a b k l : Z) : C :=
  Cmult (Cmult (C1 k) (Cconj (cut b1 C1 (k + a)%Z))) (Cmult (Cmult (C2 l) (Cconj (cut b2 C2 (l + b)%Z))) ((r [k; l]))).
Lemma rs_2 b1 b2 C1 C2 r a b : rs_sum [Tone b1 C1; Tone b2 C2] [a; b] r = csum (sym b1) (fun k => csum (sym b2) (fun l => term_2 b1 b2 C1 C2 r a b k l)).
Proof.
  cbn [rs_sum t_b t_C]. unfold term_2. apply csum_ext. intros k _. rewrite !csum_factor. reflexivity.
Qed.
Definition term_3 (b1 : nat) (b2 : nat) (b3 : nat) (C1 C2 C3 : Z -> C) (r : list Z -> C) (a b c k l m : Z) : C :=
  Cmult (Cmult (C1 k) (Cconj (cut b1 C1 (k + a)%Z))) (Cmult (Cmult (C2 l) (Cconj (cut b2 C2 (l + b)%Z))) (Cmult (Cmult (C3 m) (Cconj (cut b3 C3 (m + c)%Z))) ((r [k; l; m])))).
Lemma rs_3 b1 b2 b3 C1 C2 C3 r a b c : rs_sum [Tone b1 C1; Tone b2 C2; Tone b3 C3] [a; b; c] r = csum (sym b1) (fun k => csum (sym b2) (fun l => csum (sym b3) (fun m => term_3 b1 b2 b3 C1 C2 C3 r a b c k l m))).
Proof.
  cbn [rs_sum t_b t_C]. unfold term_3. apply csum_ext. intros k _. rewrite !csum_factor. apply csum_ext. intros l _. rewrite !csum_factor. reflexivity.
Qed.
Definition term_4 (b1 : nat) (b2 : nat) (b3 : nat) (b4 : nat) (C1 C2 C3 C4 : Z -> C) (r : list Z -> C) (a b c d k l m n : Z) : C :=
  Cmult (Cmult (C1 k) (Cconj (cut b1 C1 (k + a)%Z))) (Cmult (Cmult (C2 l) (Cconj (cut b2 C2 (l + b)%Z))) (Cmult (Cmult (C3 m) (Cconj (cut b3 C3 (m + c)%Z))) (Cmult (Cmult (C4 n) (Cconj (cut b4 C4 (n + d)%Z))) ((r [k; l; m; n]))))).
Lemma rs_4 b1 b2 b3 b4 C1 C2 C3 C4 r a b c d : rs_sum [Tone b1 C1; Tone b2 C2; Tone b3 C3; Tone b4 C4] [a; b; c; d] r = csum (sym b1) (fun k => csum (sym b2) (fun l => csum (sym b3) (fun m => csum (sym b4) (fun n => term_4 b1 b2 b3 b4 C1 C2 C3 C4 r a b c d k l m n)))).
Proof.
  cbn [rs_sum t_b t_C]. unfold term_4. apply csum_ext. intros k _. rewrite !csum_factor. apply csum_ext. intros l _. rewrite !csum_factor. apply csum_ext. intros m _. rewrite !csum_factor. reflexivity.
Qed.

Section Coeffs.
Variable ccc : carr.
Variable rm : respmat.
Variable K : nat.

Lemma rcoeff_1 b1 C1 M1 rk a :
  cc_rel ccc 1 b1 K C1 M1 -> rm_ok rm [b1] rk ->
  exists v, current_coeff_1_tone_r a ccc rm b1 = Ok v /\
    forall i, rel (2 * K + 2 + (2 * b1 + 1) * 1 + 1) (v i) (coeff [Tone b1 (fun k => C1 k i)] [a] (fun ks => rk ks i)) (coeff_size [Tone b1 (fun k => M1 k i)] [a] (fun ks => rm_size rk ks i)).
Proof.
  intros H1 HR. unfold current_coeff_1_tone_r. rewrite !rng_sym. set (K0 := (2 * K + 2)%nat).
  set (T := fun a k i => term_1 b1 (fun k => C1 k i) (fun ks => rk ks i) a k). set (U := fun a k i => term_1 b1 (fun k => M1 k i) (fun ks => rm_size rk ks i) a k).
  match goal with |- context [foreach (sym b1) ?f _] =>
    destruct (foreach_rsum2 (sym b1) f 1%nat K0 (T a) (U a) (T (- a)) (U (- a))) with (p := vzero) (m := vzero) as (pp & mm & E & Hp & Hm) end.
  { intros k p q Hk. apply in_sym in Hk. destruct (H1 k Hk) as [v1 [E1 V1']].
    destruct (HR [k]) as [vr [Er Vr]]; [repeat constructor; lia|].
    assert (Vr' : forall i, rel 0 (vr i) (rk [k] i) (rm_size rk [k] i)) by (intros i; rewrite Vr; apply rel_exact).
    assert (B : forall x a', exists x', (if within b1 (k + a') then let* c1 := cc_get ccc 1 k in let* c1a := cc_get ccc 1 (k + a') in let* r := rm_get rm [k] in Ok (vadd_r x (vmul_r (vmul_r c1 (vconj c1a)) r)) else Ok x) = Ok x' /\ step 1 K0 x x' (T a' k) (U a' k)).
    { intros x a'. destruct (within b1 (k + a')) eqn:W1; cbn [andb].
      - apply within_spec in W1. destruct (H1 _ W1) as [w1 [F1 X1]].
        rewrite E1. cbn [bind]. rewrite F1. cbn [bind]. rewrite Er. cbn [bind].
        eexists. split; [reflexivity|]. apply step_add. intros i. unfold vmul_r, vconj, T, U, term_1. rewrite !cut_in by assumption.
        specialize (Vr' i). specialize (V1' i). specialize (X1 i).
        eapply rel_conv; [products|rewrite ?Cconj_mult; ring|rewrite ?Cconj_mult; ring|unfold K0; lia].
      - eexists. split; [reflexivity|]. apply step_skip; intros i; unfold T, U, term_1; rewrite !(cut_within b1), !W1, Cconj_R; ring.
    }
    destruct (B p a) as [p' [Ep Hp]]. destruct (B q (- a)) as [m' [Em Hm']].
    exists p', m'. replace (k + - a) with (k - a) in Em by lia.
    cbv zeta in Ep, Em |- *. rewrite Ep. cbn [bind]. rewrite Em. cbn [bind]. split; [reflexivity|]. split; assumption. }
  rew_foreach E. cbn [bind]. eexists. split; [reflexivity|]. intros i.
  assert (Hp0 := step_from_zero _ _ _ _ _ Hp i). assert (Hm0 := step_from_zero _ _ _ _ _ Hm i).
  eapply rel_conv; [apply (rel_combine _ _ _ _ _ _ _ _ i Hp0 Hm0)| | |].
  - unfold coeff. cbn [map]. rewrite !rs_1. cbn [forallb]. rewrite andb_true_r. reflexivity.
  - unfold coeff_size. cbn [map]. rewrite !rs_1. cbn [forallb]. rewrite andb_true_r. reflexivity.
  - unfold K0. rewrite !sym_length. lia.
Qed.
Lemma rcoeff_2 b1 b2 C1 C2 M1 M2 rk a b :
  cc_rel ccc 1 b1 K C1 M1 -> cc_rel ccc 2 b2 K C2 M2 -> rm_ok rm [b1; b2] rk ->
  exists v, current_coeff_2_tones_r a b ccc rm b1 b2 = Ok v /\
    forall i, rel (4 * K + 4 + (2 * b1 + 1) * ((2 * b2 + 1) * 1) + 1) (v i) (coeff [Tone b1 (fun k => C1 k i); Tone b2 (fun k => C2 k i)] [a; b] (fun ks => rk ks i)) (coeff_size [Tone b1 (fun k => M1 k i); Tone b2 (fun k => M2 k i)] [a; b] (fun ks => rm_size rk ks i)).
Proof.
  intros H1 H2 HR. unfold current_coeff_2_tones_r. rewrite !rng_sym. set (K0 := (4 * K + 4)%nat).
  set (T := fun a b k l i => term_2 b1 b2 (fun k => C1 k i) (fun k => C2 k i) (fun ks => rk ks i) a b k l). set (U := fun a b k l i => term_2 b1 b2 (fun k => M1 k i) (fun k => M2 k i) (fun ks => rm_size rk ks i) a b k l).
  set (S1 := fun a b k i => csum (sym b2) (fun l => T a b k l i)).
  set (V1 := fun a b k i => csum (sym b2) (fun l => U a b k l i)).
  match goal with |- context [foreach (sym b1) ?f _] =>
    destruct (foreach_rsum2 (sym b1) f (length (sym b2) * 1)%nat K0 (S1 a b) (V1 a b) (S1 (- a) (- b)) (V1 (- a) (- b))) with (p := vzero) (m := vzero) as (pp & mm & E & Hp & Hm) end.
  { intros k p q Hk. apply in_sym in Hk. destruct (H1 k Hk) as [v1 [E1 V1']].
    apply (foreach_rsum2 (sym b2) _ 1%nat K0 (T a b k) (U a b k) (T (- a) (- b) k) (U (- a) (- b) k)).
    clear p q. intros l p q Hl. apply in_sym in Hl. destruct (H2 l Hl) as [v2 [E2 V2']].
    destruct (HR [k; l]) as [vr [Er Vr]]; [repeat constructor; lia|].
    assert (Vr' : forall i, rel 0 (vr i) (rk [k; l] i) (rm_size rk [k; l] i)) by (intros i; rewrite Vr; apply rel_exact).
    assert (B : forall x a' b', exists x', (if within b1 (k + a') && within b2 (l + b') then let* c1 := cc_get ccc 1 k in let* c1a := cc_get ccc 1 (k + a') in let* c2 := cc_get ccc 2 l in let* c2a := cc_get ccc 2 (l + b') in let* r := rm_get rm [k; l] in Ok (vadd_r x (vmul_r (vmul_r (vmul_r (vmul_r c1 (vconj c1a)) c2) (vconj c2a)) r)) else Ok x) = Ok x' /\ step 1 K0 x x' (T a' b' k l) (U a' b' k l)).
    { intros x a' b'. destruct (within b1 (k + a')) eqn:W1; [destruct (within b2 (l + b')) eqn:W2|]; cbn [andb].
      - apply within_spec in W1, W2. destruct (H1 _ W1) as [w1 [F1 X1]]. destruct (H2 _ W2) as [w2 [F2 X2]].
        rewrite E1. cbn [bind]. rewrite F1. cbn [bind]. rewrite E2. cbn [bind]. rewrite F2. cbn [bind]. rewrite Er. cbn [bind].
        eexists. split; [reflexivity|]. apply step_add. intros i. unfold vmul_r, vconj, T, U, term_2. rewrite !cut_in by assumption.
        specialize (Vr' i). specialize (V1' i). specialize (X1 i). specialize (V2' i). specialize (X2 i).
        eapply rel_conv; [products|rewrite ?Cconj_mult; ring|rewrite ?Cconj_mult; ring|unfold K0; lia].
      - eexists. split; [reflexivity|]. apply step_skip; intros i; unfold T, U, term_2; rewrite !(cut_within b2), !W2, Cconj_R; ring.
      - eexists. split; [reflexivity|]. apply step_skip; intros i; unfold T, U, term_2; rewrite !(cut_within b1), !W1, Cconj_R; ring.
    }
    destruct (B p a b) as [p' [Ep Hp]]. destruct (B q (- a) (- b)) as [m' [Em Hm']].
    exists p', m'. replace (k + - a) with (k - a) in Em by lia. replace (l + - b) with (l - b) in Em by lia.
    cbv zeta in Ep, Em |- *. rewrite Ep. cbn [bind]. rewrite Em. cbn [bind]. split; [reflexivity|]. split; assumption. }
  rew_foreach E. cbn [bind]. eexists. split; [reflexivity|]. intros i.
  assert (Hp0 := step_from_zero _ _ _ _ _ Hp i). assert (Hm0 := step_from_zero _ _ _ _ _ Hm i).
  eapply rel_conv; [apply (rel_combine _ _ _ _ _ _ _ _ i Hp0 Hm0)| | |].
  - unfold coeff. cbn [map]. rewrite !rs_2. cbn [forallb]. rewrite andb_true_r. reflexivity.
  - unfold coeff_size. cbn [map]. rewrite !rs_2. cbn [forallb]. rewrite andb_true_r. reflexivity.
  - unfold K0. rewrite !sym_length. lia.
Qed.
Lemma rcoeff_3 b1 b2 b3 C1 C2 C3 M1 M2 M3 rk a b c :
  cc_rel ccc 1 b1 K C1 M1 -> cc_rel ccc 2 b2 K C2 M2 -> cc_rel ccc 3 b3 K C3 M3 -> rm_ok rm [b1; b2; b3] rk ->
  exists v, current_coeff_3_tones_r a b c ccc rm b1 b2 b3 = Ok v /\
    forall i, rel (6 * K + 6 + (2 * b1 + 1) * ((2 * b2 + 1) * ((2 * b3 + 1) * 1)) + 1) (v i) (coeff [Tone b1 (fun k => C1 k i); Tone b2 (fun k => C2 k i); Tone b3 (fun k => C3 k i)] [a; b; c] (fun ks => rk ks i)) (coeff_size [Tone b1 (fun k => M1 k i); Tone b2 (fun k => M2 k i); Tone b3 (fun k => M3 k i)] [a; b; c] (fun ks => rm_size rk ks i)).
Proof.
  intros H1 H2 H3 HR. unfold current_coeff_3_tones_r. rewrite !rng_sym. set (K0 := (6 * K + 6)%nat).
  set (T := fun a b c k l m i => term_3 b1 b2 b3 (fun k => C1 k i) (fun k => C2 k i) (fun k => C3 k i) (fun ks => rk ks i) a b c k l m). set (U := fun a b c k l m i => term_3 b1 b2 b3 (fun k => M1 k i) (fun k => M2 k i) (fun k => M3 k i) (fun ks => rm_size rk ks i) a b c k l m).
  set (S2 := fun a b c k l i => csum (sym b3) (fun m => T a b c k l m i)).
  set (V2 := fun a b c k l i => csum (sym b3) (fun m => U a b c k l m i)).
  set (S1 := fun a b c k i => csum (sym b2) (fun l => S2 a b c k l i)).
  set (V1 := fun a b c k i => csum (sym b2) (fun l => V2 a b c k l i)).
  match goal with |- context [foreach (sym b1) ?f _] =>
    destruct (foreach_rsum2 (sym b1) f (length (sym b2) * (length (sym b3) * 1))%nat K0 (S1 a b c) (V1 a b c) (S1 (- a) (- b) (- c)) (V1 (- a) (- b) (- c))) with (p := vzero) (m := vzero) as (pp & mm & E & Hp & Hm) end.
  { intros k p q Hk. apply in_sym in Hk. destruct (H1 k Hk) as [v1 [E1 V1']].
    apply (foreach_rsum2 (sym b2) _ (length (sym b3) * 1)%nat K0 (S2 a b c k) (V2 a b c k) (S2 (- a) (- b) (- c) k) (V2 (- a) (- b) (- c) k)).
    clear p q. intros l p q Hl. apply in_sym in Hl. destruct (H2 l Hl) as [v2 [E2 V2']].
    apply (foreach_rsum2 (sym b3) _ 1%nat K0 (T a b c k l) (U a b c k l) (T (- a) (- b) (- c) k l) (U (- a) (- b) (- c) k l)).
    clear p q. intros m p q Hm. apply in_sym in Hm. destruct (H3 m Hm) as [v3 [E3 V3']].
    destruct (HR [k; l; m]) as [vr [Er Vr]]; [repeat constructor; lia|].
    assert (Vr' : forall i, rel 0 (vr i) (rk [k; l; m] i) (rm_size rk [k; l; m] i)) by (intros i; rewrite Vr; apply rel_exact).
    rewrite E1, E2, E3. cbn [bind]. rewrite Er. cbn [bind].
    assert (B : forall x a' b' c', exists x', (if within b1 (k + a') && within b2 (l + b') && within b3 (m + c') then let* c1a := cc_get ccc 1 (k + a') in let* c2a := cc_get ccc 2 (l + b') in let* c3a := cc_get ccc 3 (m + c') in let cp := vmul_r (vconj (vmul_r (vmul_r c1a c2a) c3a)) (vmul_r (vmul_r v1 v2) v3) in Ok (vadd_r x (vmul_r cp vr)) else Ok x) = Ok x' /\ step 1 K0 x x' (T a' b' c' k l m) (U a' b' c' k l m)).
    { intros x a' b' c'. destruct (within b1 (k + a')) eqn:W1; [destruct (within b2 (l + b')) eqn:W2; [destruct (within b3 (m + c')) eqn:W3|]|]; cbn [andb].
      - apply within_spec in W1, W2, W3. destruct (H1 _ W1) as [w1 [F1 X1]]. destruct (H2 _ W2) as [w2 [F2 X2]]. destruct (H3 _ W3) as [w3 [F3 X3]].
        rewrite F1, F2, F3. cbn [bind]. cbv zeta.
        eexists. split; [reflexivity|]. apply step_add. intros i. unfold vmul_r, vconj, T, U, term_3. rewrite !cut_in by assumption.
        specialize (Vr' i). specialize (V1' i). specialize (X1 i). specialize (V2' i). specialize (X2 i). specialize (V3' i). specialize (X3 i).
        eapply rel_conv; [products|rewrite ?Cconj_mult; ring|rewrite ?Cconj_mult; ring|unfold K0; lia].
      - eexists. split; [reflexivity|]. apply step_skip; intros i; unfold T, U, term_3; rewrite !(cut_within b3), !W3, Cconj_R; ring.
      - eexists. split; [reflexivity|]. apply step_skip; intros i; unfold T, U, term_3; rewrite !(cut_within b2), !W2, Cconj_R; ring.
      - eexists. split; [reflexivity|]. apply step_skip; intros i; unfold T, U, term_3; rewrite !(cut_within b1), !W1, Cconj_R; ring.
    }
    destruct (B p a b c) as [p' [Ep Hp]]. destruct (B q (- a) (- b) (- c)) as [m' [Em Hm']].
    exists p', m'. replace (k + - a) with (k - a) in Em by lia. replace (l + - b) with (l - b) in Em by lia. replace (m + - c) with (m - c) in Em by lia.
    cbv zeta in Ep, Em |- *. rewrite Ep. cbn [bind]. rewrite Em. cbn [bind]. split; [reflexivity|]. split; assumption. }
  rew_foreach E. cbn [bind]. eexists. split; [reflexivity|]. intros i.
  assert (Hp0 := step_from_zero _ _ _ _ _ Hp i). assert (Hm0 := step_from_zero _ _ _ _ _ Hm i).
  eapply rel_conv; [apply (rel_combine _ _ _ _ _ _ _ _ i Hp0 Hm0)| | |].
  - unfold coeff. cbn [map]. rewrite !rs_3. cbn [forallb]. rewrite andb_true_r, ?andb_assoc. reflexivity.
  - unfold coeff_size. cbn [map]. rewrite !rs_3. cbn [forallb]. rewrite andb_true_r, ?andb_assoc. reflexivity.
  - unfold K0. rewrite !sym_length. lia.
Qed.
Lemma rcoeff_4 b1 b2 b3 b4 C1 C2 C3 C4 M1 M2 M3 M4 rk a b c d :
  cc_rel ccc 1 b1 K C1 M1 -> cc_rel ccc 2 b2 K C2 M2 -> cc_rel ccc 3 b3 K C3 M3 -> cc_rel ccc 4 b4 K C4 M4 -> rm_ok rm [b1; b2; b3; b4] rk ->
  exists v, current_coeff_4_tones_r a b c d ccc rm b1 b2 b3 b4 = Ok v /\
    forall i, rel (8 * K + 8 + (2 * b1 + 1) * ((2 * b2 + 1) * ((2 * b3 + 1) * ((2 * b4 + 1) * 1))) + 1) (v i) (coeff [Tone b1 (fun k => C1 k i); Tone b2 (fun k => C2 k i); Tone b3 (fun k => C3 k i); Tone b4 (fun k => C4 k i)] [a; b; c; d] (fun ks => rk ks i)) (coeff_size [Tone b1 (fun k => M1 k i); Tone b2 (fun k => M2 k i); Tone b3 (fun k => M3 k i); Tone b4 (fun k => M4 k i)] [a; b; c; d] (fun ks => rm_size rk ks i)).
Proof.
  intros H1 H2 H3 H4 HR. unfold current_coeff_4_tones_r. rewrite !rng_sym. set (K0 := (8 * K + 8)%nat).
  set (T := fun a b c d k l m n i => term_4 b1 b2 b3 b4 (fun k => C1 k i) (fun k => C2 k i) (fun k => C3 k i) (fun k => C4 k i) (fun ks => rk ks i) a b c d k l m n). set (U := fun a b c d k l m n i => term_4 b1 b2 b3 b4 (fun k => M1 k i) (fun k => M2 k i) (fun k => M3 k i) (fun k => M4 k i) (fun ks => rm_size rk ks i) a b c d k l m n).
  set (S3 := fun a b c d k l m i => csum (sym b4) (fun n => T a b c d k l m n i)).
  set (V3 := fun a b c d k l m i => csum (sym b4) (fun n => U a b c d k l m n i)).
  set (S2 := fun a b c d k l i => csum (sym b3) (fun m => S3 a b c d k l m i)).
  set (V2 := fun a b c d k l i => csum (sym b3) (fun m => V3 a b c d k l m i)).
  set (S1 := fun a b c d k i => csum (sym b2) (fun l => S2 a b c d k l i)).
  set (V1 := fun a b c d k i => csum (sym b2) (fun l => V2 a b c d k l i)).
  match goal with |- context [foreach (sym b1) ?f _] =>
    destruct (foreach_rsum2 (sym b1) f (length (sym b2) * (length (sym b3) * (length (sym b4) * 1)))%nat K0 (S1 a b c d) (V1 a b c d) (S1 (- a) (- b) (- c) (- d)) (V1 (- a) (- b) (- c) (- d))) with (p := vzero) (m := vzero) as (pp & mm & E & Hp & Hm) end.
  { intros k p q Hk. apply in_sym in Hk. destruct (H1 k Hk) as [v1 [E1 V1']].
    apply (foreach_rsum2 (sym b2) _ (length (sym b3) * (length (sym b4) * 1))%nat K0 (S2 a b c d k) (V2 a b c d k) (S2 (- a) (- b) (- c) (- d) k) (V2 (- a) (- b) (- c) (- d) k)).
    clear p q. intros l p q Hl. apply in_sym in Hl. destruct (H2 l Hl) as [v2 [E2 V2']].
    apply (foreach_rsum2 (sym b3) _ (length (sym b4) * 1)%nat K0 (S3 a b c d k l) (V3 a b c d k l) (S3 (- a) (- b) (- c) (- d) k l) (V3 (- a) (- b) (- c) (- d) k l)).
    clear p q. intros m p q Hm. apply in_sym in Hm. destruct (H3 m Hm) as [v3 [E3 V3']].
    apply (foreach_rsum2 (sym b4) _ 1%nat K0 (T a b c d k l m) (U a b c d k l m) (T (- a) (- b) (- c) (- d) k l m) (U (- a) (- b) (- c) (- d) k l m)).
    clear p q. intros n p q Hn. apply in_sym in Hn. destruct (H4 n Hn) as [v4 [E4 V4']].
    destruct (HR [k; l; m; n]) as [vr [Er Vr]]; [repeat constructor; lia|].
    assert (Vr' : forall i, rel 0 (vr i) (rk [k; l; m; n] i) (rm_size rk [k; l; m; n] i)) by (intros i; rewrite Vr; apply rel_exact).
    rewrite E1, E2, E3, E4. cbn [bind]. rewrite Er. cbn [bind].
    assert (B : forall x a' b' c' d', exists x', (if within b1 (k + a') && within b2 (l + b') && within b3 (m + c') && within b4 (n + d') then let* c1a := cc_get ccc 1 (k + a') in let* c2a := cc_get ccc 2 (l + b') in let* c3a := cc_get ccc 3 (m + c') in let* c4a := cc_get ccc 4 (n + d') in let cp := vmul_r (vconj (vmul_r (vmul_r (vmul_r c1a c2a) c3a) c4a)) (vmul_r (vmul_r (vmul_r v1 v2) v3) v4) in Ok (vadd_r x (vmul_r cp vr)) else Ok x) = Ok x' /\ step 1 K0 x x' (T a' b' c' d' k l m n) (U a' b' c' d' k l m n)).
    { intros x a' b' c' d'. destruct (within b1 (k + a')) eqn:W1; [destruct (within b2 (l + b')) eqn:W2; [destruct (within b3 (m + c')) eqn:W3; [destruct (within b4 (n + d')) eqn:W4|]|]|]; cbn [andb].
      - apply within_spec in W1, W2, W3, W4. destruct (H1 _ W1) as [w1 [F1 X1]]. destruct (H2 _ W2) as [w2 [F2 X2]]. destruct (H3 _ W3) as [w3 [F3 X3]]. destruct (H4 _ W4) as [w4 [F4 X4]].
        rewrite F1, F2, F3, F4. cbn [bind]. cbv zeta.
        eexists. split; [reflexivity|]. apply step_add. intros i. unfold vmul_r, vconj, T, U, term_4. rewrite !cut_in by assumption.
        specialize (Vr' i). specialize (V1' i). specialize (X1 i). specialize (V2' i). specialize (X2 i). specialize (V3' i). specialize (X3 i). specialize (V4' i). specialize (X4 i).
        eapply rel_conv; [products|rewrite ?Cconj_mult; ring|rewrite ?Cconj_mult; ring|unfold K0; lia].
      - eexists. split; [reflexivity|]. apply step_skip; intros i; unfold T, U, term_4; rewrite !(cut_within b4), !W4, Cconj_R; ring.
      - eexists. split; [reflexivity|]. apply step_skip; intros i; unfold T, U, term_4; rewrite !(cut_within b3), !W3, Cconj_R; ring.
      - eexists. split; [reflexivity|]. apply step_skip; intros i; unfold T, U, term_4; rewrite !(cut_within b2), !W2, Cconj_R; ring.
      - eexists. split; [reflexivity|]. apply step_skip; intros i; unfold T, U, term_4; rewrite !(cut_within b1), !W1, Cconj_R; ring.
    }
    destruct (B p a b c d) as [p' [Ep Hp]]. destruct (B q (- a) (- b) (- c) (- d)) as [m' [Em Hm']].
    exists p', m'. replace (k + - a) with (k - a) in Em by lia. replace (l + - b) with (l - b) in Em by lia. replace (m + - c) with (m - c) in Em by lia. replace (n + - d) with (n - d) in Em by lia.
    cbv zeta in Ep, Em |- *. rewrite Ep. cbn [bind]. rewrite Em. cbn [bind]. split; [reflexivity|]. split; assumption. }
  rew_foreach E. cbn [bind]. eexists. split; [reflexivity|]. intros i.
  assert (Hp0 := step_from_zero _ _ _ _ _ Hp i). assert (Hm0 := step_from_zero _ _ _ _ _ Hm i).
  eapply rel_conv; [apply (rel_combine _ _ _ _ _ _ _ _ i Hp0 Hm0)| | |].
  - unfold coeff. cbn [map]. rewrite !rs_4. cbn [forallb]. rewrite andb_true_r, ?andb_assoc. reflexivity.
  - unfold coeff_size. cbn [map]. rewrite !rs_4. cbn [forallb]. rewrite andb_true_r, ?andb_assoc. reflexivity.
  - unfold K0. rewrite !sym_length. lia.
Qed.
End Coeffs.
