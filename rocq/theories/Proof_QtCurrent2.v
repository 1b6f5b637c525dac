(** Current coefficients, matching loops, response matrices and the top-level
    function: refinement of Model_QtCurrent to Spec_QtCurrent. *)
From Coq Require Import List ZArith Lia Bool Arith Reals Lra Permutation.
From Coquelicot Require Import Complex.
From Verif Require Import Base Sums Round Model_QtCurrent Spec_QtCurrent Spec_QtApi Proof_QtCurrent.
Import ListNotations.
Open Scope Z_scope.

Lemma rng_sym b : rng b = sym b.
Proof. reflexivity. Qed.

(** What the loops need to know about the arrays they read. *)
Definition cc_ok (ccc : carr) (f : Z) (b : nat) (Cf : Z -> vec) : Prop :=
  forall k, - Z.of_nat b <= k <= Z.of_nat b -> exists v, cc_get ccc f k = Ok v /\ forall i, v i = Cf k i.

Lemma combine_spec z p m i :
  combine z p m i = if z then RtoC (Im (p i)) else ((Im (p i) + Im (m i))%R, (- (Re (p i) - Re (m i)))%R).
Proof.
  unfold combine. destruct z.
  - unfold Cplus, Cmult, Ci, RtoC; simpl. f_equal; ring.
  - unfold Cminus, Cplus, Copp, Cmult, Ci, RtoC; simpl. f_equal; ring.
Qed.

Ltac rew_foreach E :=
  match type of E with
  | _ = Ok ?r => match goal with |- context [@foreach ?A ?B ?l ?f ?x] =>
      replace (@foreach A B l f x) with (@Ok B r) by (symmetry; exact E) end
  end.

Ltac box := repeat constructor; (apply in_sym; assumption) || lia || assumption.

Section Coeffs.
Variable ccc : carr.
Variable rm : respmat.

Lemma coeff_1 b1 C1 rk a :
  cc_ok ccc 1 b1 C1 -> rm_ok rm [b1] rk ->
  exists v, current_coeff_1_tone a ccc rm b1 = Ok v /\
    forall i, v i = coeff [Tone b1 (fun k => C1 k i)] [a] (fun ks => rk ks i).
Proof.
  intros H1 HR. unfold current_coeff_1_tone. rewrite rng_sym.
  set (T := fun a k i => (Cmult (Cmult (C1 k i) (Cconj (cut b1 (fun k => C1 k i) (k + a)))) (rk [k] i))).
  match goal with |- context [foreach (sym b1) ?f _] =>
    destruct (foreach_sum2 (sym b1) f (T a) (T (- a))) with (p := vzero) (m := vzero) as [p [m [E [Hp Hm]]]] end.
  { intros k p m Hk. apply in_sym in Hk.
    destruct (H1 k Hk) as [v1 [E1 V1]].
    destruct (HR [k]) as [vr [Er Vr]]; [repeat constructor; lia|].
    assert (B : forall x a', (exists x', (if within b1 (k + a') then
          let* c1 := cc_get ccc 1 k in let* c1a := cc_get ccc 1 (k + a') in
          let* r := rm_get rm [k] in
          Ok (vadd x (vmul (vmul c1 (vconj c1a)) r))
        else Ok x) = Ok x' /\ forall i, x' i = Cplus (x i) (T a' k i))).
    { intros x a'. destruct (within b1 (k + a')) eqn:W.
      - rewrite E1. apply within_spec in W. destruct (H1 _ W) as [v2 [E2 V2]]. cbn [bind]. rewrite E2. cbn [bind].
        rewrite Er. cbn [bind]. eexists. split; [reflexivity|]. intros i. unfold vadd, vmul, vconj, T.
        rewrite cut_in by assumption. now rewrite V1, V2, Vr.
      - eexists. split; [reflexivity|]. intros i. unfold T. rewrite cut_within, W. rewrite Cconj_R. ring. }
    destruct (B p a) as [p' [Ep Hp]]. destruct (B m (- a)) as [m' [Em Hm]].
    exists p', m'. replace (k + - a) with (k - a) in Em by lia.
    rewrite Ep. cbn [bind]. rewrite Em. cbn [bind]. split; [reflexivity|]. split; assumption. }
  rew_foreach E. cbn [bind]. eexists. split; [reflexivity|]. intros i. rewrite combine_spec.
  unfold coeff. cbn [rs_sum map forallb t_b t_C]. rewrite andb_true_r.
  rewrite Hp, Hm. unfold vzero, T. rewrite !Cplus_0_l. reflexivity.
Qed.

(** Moves a factor of the recursive specification into the inner sum. *)
Lemma csum_factor {A} (l : list A) c f : Cmult c (csum l f) = csum l (fun x => Cmult c (f x)).
Proof. symmetry. apply csum_scal_l. Qed.

Lemma coeff_2 b1 b2 C1 C2 rk a b :
  cc_ok ccc 1 b1 C1 -> cc_ok ccc 2 b2 C2 -> rm_ok rm [b1; b2] rk ->
  exists v, current_coeff_2_tones a b ccc rm b1 b2 = Ok v /\
    forall i, v i = coeff [Tone b1 (fun k => C1 k i); Tone b2 (fun k => C2 k i)] [a; b] (fun ks => rk ks i).
Proof.
  intros H1 H2 HR. unfold current_coeff_2_tones. rewrite !rng_sym.
  set (T := fun a b k l i =>
     Cmult (Cmult (C1 k i) (Cconj (cut b1 (fun k => C1 k i) (k + a))))
           (Cmult (Cmult (C2 l i) (Cconj (cut b2 (fun k => C2 k i) (l + b)))) (rk [k; l] i))).
  set (S := fun a b k i => csum (sym b2) (fun l => T a b k l i)).
  match goal with |- context [foreach (sym b1) ?f _] =>
    destruct (foreach_sum2 (sym b1) f (S a b) (S (- a) (- b))) with (p := vzero) (m := vzero) as [p [m [E [Hp Hm]]]] end.
  { intros k p m Hk. apply in_sym in Hk. destruct (H1 k Hk) as [v1 [E1 V1]].
    apply (foreach_sum2 (sym b2) _ (T a b k) (T (- a) (- b) k)).
    clear p m. intros l p m Hl. apply in_sym in Hl. destruct (H2 l Hl) as [v2 [E2 V2]].
    destruct (HR [k; l]) as [vr [Er Vr]]; [repeat constructor; lia|].
    assert (B : forall x a' b', (exists x', (if within b1 (k + a') && within b2 (l + b') then
          let* c1 := cc_get ccc 1 k in let* c1a := cc_get ccc 1 (k + a') in
          let* c2 := cc_get ccc 2 l in let* c2a := cc_get ccc 2 (l + b') in
          let* r := rm_get rm [k; l] in
          Ok (vadd x (vmul (vmul (vmul (vmul c1 (vconj c1a)) c2) (vconj c2a)) r))
        else Ok x) = Ok x' /\ forall i, x' i = Cplus (x i) (T a' b' k l i))).
    { intros x a' b'. destruct (within b1 (k + a')) eqn:W1; [destruct (within b2 (l + b')) eqn:W2|]; simpl andb; cbv iota.
      - rewrite E1, E2. apply within_spec in W1, W2.
        destruct (H1 _ W1) as [w1 [F1 X1]]. destruct (H2 _ W2) as [w2 [F2 X2]].
        cbn [bind]. rewrite F1. cbn [bind]. rewrite F2. cbn [bind]. rewrite Er. cbn [bind].
        eexists. split; [reflexivity|]. intros i. unfold vadd, vmul, vconj, T.
        rewrite !cut_in by assumption. rewrite V1, V2, Vr, X1, X2. ring.
      - eexists. split; [reflexivity|]. intros i. unfold T. rewrite (cut_within b2), W2. rewrite Cconj_R. ring.
      - eexists. split; [reflexivity|]. intros i. unfold T. rewrite (cut_within b1), W1. rewrite Cconj_R. ring. }
    destruct (B p a b) as [p' [Ep Hp]]. destruct (B m (- a) (- b)) as [m' [Em Hm]].
    exists p', m'. replace (k + - a) with (k - a) in Em by lia. replace (l + - b) with (l - b) in Em by lia.
    rewrite Ep. cbn [bind]. rewrite Em. cbn [bind]. split; [reflexivity|]. split; assumption. }
  rew_foreach E. cbn [bind]. eexists. split; [reflexivity|]. intros i. rewrite combine_spec.
  assert (RS : forall a b, rs_sum [Tone b1 (fun k => C1 k i); Tone b2 (fun k => C2 k i)] [a; b] (fun ks => rk ks i) =
     csum (sym b1) (fun k => S a b k i)).
  { intros a' b'. cbn [rs_sum t_b t_C]. apply csum_ext. intros k _. unfold S, T. rewrite csum_factor. reflexivity. }
  unfold coeff. cbn [map]. rewrite !RS. cbn [forallb]. rewrite andb_true_r.
  rewrite Hp, Hm. unfold vzero. rewrite !Cplus_0_l. reflexivity.
Qed.

Lemma coeff_3 b1 b2 b3 C1 C2 C3 rk a b c :
  cc_ok ccc 1 b1 C1 -> cc_ok ccc 2 b2 C2 -> cc_ok ccc 3 b3 C3 -> rm_ok rm [b1; b2; b3] rk ->
  exists v, current_coeff_3_tones a b c ccc rm b1 b2 b3 = Ok v /\
    forall i, v i = coeff [Tone b1 (fun k => C1 k i); Tone b2 (fun k => C2 k i); Tone b3 (fun k => C3 k i)]
                          [a; b; c] (fun ks => rk ks i).
Proof.
  intros H1 H2 H3 HR. unfold current_coeff_3_tones. rewrite !rng_sym.
  set (T := fun a b c k l m i =>
     Cmult (Cmult (C1 k i) (Cconj (cut b1 (fun k => C1 k i) (k + a))))
     (Cmult (Cmult (C2 l i) (Cconj (cut b2 (fun k => C2 k i) (l + b))))
     (Cmult (Cmult (C3 m i) (Cconj (cut b3 (fun k => C3 k i) (m + c)))) (rk [k; l; m] i)))).
  set (S2 := fun a b c k l i => csum (sym b3) (fun m => T a b c k l m i)).
  set (S := fun a b c k i => csum (sym b2) (fun l => S2 a b c k l i)).
  match goal with |- context [foreach (sym b1) ?f _] =>
    destruct (foreach_sum2 (sym b1) f (S a b c) (S (- a) (- b) (- c))) with (p := vzero) (m := vzero)
      as [p [m [E [Hp Hm]]]] end.
  { intros k p q Hk. apply in_sym in Hk. destruct (H1 k Hk) as [v1 [E1 V1]].
    apply (foreach_sum2 (sym b2) _ (S2 a b c k) (S2 (- a) (- b) (- c) k)).
    clear p q. intros l p q Hl. apply in_sym in Hl. destruct (H2 l Hl) as [v2 [E2 V2]].
    apply (foreach_sum2 (sym b3) _ (T a b c k l) (T (- a) (- b) (- c) k l)).
    clear p q. intros m p q Hm. apply in_sym in Hm. destruct (H3 m Hm) as [v3 [E3 V3]].
    destruct (HR [k; l; m]) as [vr [Er Vr]]; [repeat constructor; lia|].
    rewrite E1, E2, E3. cbn [bind]. rewrite Er. cbn [bind].
    assert (B : forall x a' b' c', (exists x', (if within b1 (k + a') && within b2 (l + b') && within b3 (m + c') then
          let* c1a := cc_get ccc 1 (k + a') in let* c2a := cc_get ccc 2 (l + b') in
          let* c3a := cc_get ccc 3 (m + c') in
          let cp := vmul (vconj (vmul (vmul c1a c2a) c3a)) (vmul (vmul v1 v2) v3) in
          Ok (vadd x (vmul cp vr))
        else Ok x) = Ok x' /\ forall i, x' i = Cplus (x i) (T a' b' c' k l m i))).
    { intros x a' b' c'. destruct (within b1 (k + a')) eqn:W1; [destruct (within b2 (l + b')) eqn:W2;
        [destruct (within b3 (m + c')) eqn:W3|]|]; simpl andb; cbv iota.
      - apply within_spec in W1, W2, W3.
        destruct (H1 _ W1) as [w1 [F1 X1]]. destruct (H2 _ W2) as [w2 [F2 X2]]. destruct (H3 _ W3) as [w3 [F3 X3]].
        rewrite F1, F2, F3. cbn [bind].
        eexists. split; [reflexivity|]. intros i. unfold vadd, vmul, vconj, T.
        rewrite !cut_in by assumption. rewrite !Cconj_mult. rewrite V1, V2, V3, Vr, X1, X2, X3. ring.
      - eexists. split; [reflexivity|]. intros i. unfold T. rewrite (cut_within b3), W3. rewrite Cconj_R. ring.
      - eexists. split; [reflexivity|]. intros i. unfold T. rewrite (cut_within b2), W2. rewrite Cconj_R. ring.
      - eexists. split; [reflexivity|]. intros i. unfold T. rewrite (cut_within b1), W1. rewrite Cconj_R. ring. }
    destruct (B p a b c) as [p' [Ep Hp]]. destruct (B q (- a) (- b) (- c)) as [m' [Em Hm']].
    exists p', m'. replace (k + - a) with (k - a) in Em by lia. replace (l + - b) with (l - b) in Em by lia.
    replace (m + - c) with (m - c) in Em by lia. cbv zeta in Ep, Em |- *.
    rewrite Ep. cbn [bind]. rewrite Em. cbn [bind]. split; [reflexivity|]. split; assumption. }
  rew_foreach E. cbn [bind]. eexists. split; [reflexivity|]. intros i. rewrite combine_spec.
  assert (RS : forall a b c, rs_sum [Tone b1 (fun k => C1 k i); Tone b2 (fun k => C2 k i); Tone b3 (fun k => C3 k i)]
                 [a; b; c] (fun ks => rk ks i) = csum (sym b1) (fun k => S a b c k i)).
  { intros a' b' c'. cbn [rs_sum t_b t_C]. apply csum_ext. intros k _. unfold S, S2, T. rewrite csum_factor.
    apply csum_ext. intros l _. rewrite !csum_factor. reflexivity. }
  unfold coeff. cbn [map]. rewrite !RS. cbn [forallb]. rewrite andb_true_r, andb_assoc.
  rewrite Hp, Hm. unfold vzero. rewrite !Cplus_0_l. reflexivity.
Qed.

Lemma coeff_4 b1 b2 b3 b4 C1 C2 C3 C4 rk a b c d :
  cc_ok ccc 1 b1 C1 -> cc_ok ccc 2 b2 C2 -> cc_ok ccc 3 b3 C3 -> cc_ok ccc 4 b4 C4 ->
  rm_ok rm [b1; b2; b3; b4] rk ->
  exists v, current_coeff_4_tones a b c d ccc rm b1 b2 b3 b4 = Ok v /\
    forall i, v i = coeff [Tone b1 (fun k => C1 k i); Tone b2 (fun k => C2 k i); Tone b3 (fun k => C3 k i);
                           Tone b4 (fun k => C4 k i)]
                          [a; b; c; d] (fun ks => rk ks i).
Proof.
  intros H1 H2 H3 H4 HR. unfold current_coeff_4_tones. rewrite !rng_sym.
  set (T := fun a b c d k l m n i =>
     Cmult (Cmult (C1 k i) (Cconj (cut b1 (fun k => C1 k i) (k + a))))
     (Cmult (Cmult (C2 l i) (Cconj (cut b2 (fun k => C2 k i) (l + b))))
     (Cmult (Cmult (C3 m i) (Cconj (cut b3 (fun k => C3 k i) (m + c))))
     (Cmult (Cmult (C4 n i) (Cconj (cut b4 (fun k => C4 k i) (n + d)))) (rk [k; l; m; n] i))))).
  set (S3 := fun a b c d k l m i => csum (sym b4) (fun n => T a b c d k l m n i)).
  set (S2 := fun a b c d k l i => csum (sym b3) (fun m => S3 a b c d k l m i)).
  set (S := fun a b c d k i => csum (sym b2) (fun l => S2 a b c d k l i)).
  match goal with |- context [foreach (sym b1) ?f _] =>
    destruct (foreach_sum2 (sym b1) f (S a b c d) (S (- a) (- b) (- c) (- d))) with (p := vzero) (m := vzero)
      as [p [m [E [Hp Hm]]]] end.
  { intros k p q Hk. apply in_sym in Hk. destruct (H1 k Hk) as [v1 [E1 V1]].
    apply (foreach_sum2 (sym b2) _ (S2 a b c d k) (S2 (- a) (- b) (- c) (- d) k)).
    clear p q. intros l p q Hl. apply in_sym in Hl. destruct (H2 l Hl) as [v2 [E2 V2]].
    apply (foreach_sum2 (sym b3) _ (S3 a b c d k l) (S3 (- a) (- b) (- c) (- d) k l)).
    clear p q. intros m p q Hm. apply in_sym in Hm. destruct (H3 m Hm) as [v3 [E3 V3]].
    apply (foreach_sum2 (sym b4) _ (T a b c d k l m) (T (- a) (- b) (- c) (- d) k l m)).
    clear p q. intros n p q Hn. apply in_sym in Hn. destruct (H4 n Hn) as [v4 [E4 V4]].
    destruct (HR [k; l; m; n]) as [vr [Er Vr]]; [repeat constructor; lia|].
    rewrite E1, E2, E3, E4. cbn [bind]. rewrite Er. cbn [bind].
    assert (B : forall x a' b' c' d', (exists x',
        (if within b1 (k + a') && within b2 (l + b') && within b3 (m + c') && within b4 (n + d') then
          let* c1a := cc_get ccc 1 (k + a') in let* c2a := cc_get ccc 2 (l + b') in
          let* c3a := cc_get ccc 3 (m + c') in let* c4a := cc_get ccc 4 (n + d') in
          let cp := vmul (vconj (vmul (vmul (vmul c1a c2a) c3a) c4a)) (vmul (vmul (vmul v1 v2) v3) v4) in
          Ok (vadd x (vmul cp vr))
        else Ok x) = Ok x' /\ forall i, x' i = Cplus (x i) (T a' b' c' d' k l m n i))).
    { intros x a' b' c' d'. destruct (within b1 (k + a')) eqn:W1; [destruct (within b2 (l + b')) eqn:W2;
        [destruct (within b3 (m + c')) eqn:W3; [destruct (within b4 (n + d')) eqn:W4|]|]|]; simpl andb; cbv iota.
      - apply within_spec in W1, W2, W3, W4.
        destruct (H1 _ W1) as [w1 [F1 X1]]. destruct (H2 _ W2) as [w2 [F2 X2]]. destruct (H3 _ W3) as [w3 [F3 X3]].
        destruct (H4 _ W4) as [w4 [F4 X4]].
        rewrite F1, F2, F3, F4. cbn [bind].
        eexists. split; [reflexivity|]. intros i. unfold vadd, vmul, vconj, T.
        rewrite !cut_in by assumption. rewrite !Cconj_mult. rewrite V1, V2, V3, V4, Vr, X1, X2, X3, X4. ring.
      - eexists. split; [reflexivity|]. intros i. unfold T. rewrite (cut_within b4), W4. rewrite Cconj_R. ring.
      - eexists. split; [reflexivity|]. intros i. unfold T. rewrite (cut_within b3), W3. rewrite Cconj_R. ring.
      - eexists. split; [reflexivity|]. intros i. unfold T. rewrite (cut_within b2), W2. rewrite Cconj_R. ring.
      - eexists. split; [reflexivity|]. intros i. unfold T. rewrite (cut_within b1), W1. rewrite Cconj_R. ring. }
    destruct (B p a b c d) as [p' [Ep Hp]]. destruct (B q (- a) (- b) (- c) (- d)) as [m' [Em Hm']].
    exists p', m'. replace (k + - a) with (k - a) in Em by lia. replace (l + - b) with (l - b) in Em by lia.
    replace (m + - c) with (m - c) in Em by lia. replace (n + - d) with (n - d) in Em by lia.
    cbv zeta in Ep, Em |- *.
    rewrite Ep. cbn [bind]. rewrite Em. cbn [bind]. split; [reflexivity|]. split; assumption. }
  rew_foreach E. cbn [bind]. eexists. split; [reflexivity|]. intros i. rewrite combine_spec.
  assert (RS : forall a b c d, rs_sum [Tone b1 (fun k => C1 k i); Tone b2 (fun k => C2 k i); Tone b3 (fun k => C3 k i);
                  Tone b4 (fun k => C4 k i)]
                 [a; b; c; d] (fun ks => rk ks i) = csum (sym b1) (fun k => S a b c d k i)).
  { intros a' b' c' d'. cbn [rs_sum t_b t_C]. apply csum_ext. intros k _. unfold S, S2, S3, T. rewrite csum_factor.
    apply csum_ext. intros l _. rewrite !csum_factor. apply csum_ext. intros m' _. rewrite !csum_factor.
    reflexivity. }
  unfold coeff. cbn [map]. rewrite !RS. cbn [forallb]. rewrite andb_true_r, !andb_assoc.
  rewrite Hp, Hm. unfold vzero. rewrite !Cplus_0_l. reflexivity.
Qed.
End Coeffs.

(* ------------------------------------------------------------------ *)
(** ** Frequency matching *)

Lemma csum_flat_map {A B} (g : A -> list B) (l : list A) f :
  csum (flat_map g l) f = csum l (fun x => csum (g x) f).
Proof. induction l as [|x l IH]; simpl; [reflexivity|]. now rewrite csum_app, IH. Qed.

Lemma csum_harm P f : csum (harm_range P) f = csum (sym P) f.
Proof. unfold harm_range. apply csum_perm. symmetry. apply Permutation_rev. Qed.

Lemma csum_index_S P n f :
  csum (index_vectors P (S n)) f = csum (sym P) (fun a0 => csum (index_vectors P n) (fun a => f (a0 :: a))).
Proof. simpl. rewrite csum_flat_map. apply csum_ext. intros a0 _. apply csum_map. Qed.

Lemma csum_index_0 P f : csum (index_vectors P 0) f = f [].
Proof. simpl. ring. Qed.

Lemma foreach_match (cond : bool) (m : res vec) (t : vec) (cur : vec) :
  (exists v, m = Ok v /\ forall i, v i = t i) ->
  exists cur', (if cond then let* c := m in Ok (vadd cur c) else Ok cur) = Ok cur' /\
    forall i, cur' i = Cplus (cur i) (if cond then t i else RtoC 0).
Proof.
  intros [v [E H]]. destruct cond.
  - rewrite E. simpl. eexists; split; [reflexivity|]. intros i. unfold vadd. now rewrite H.
  - eexists; split; [reflexivity|]. intros; ring.
Qed.

Lemma same_freq_Reqb x w : same_freq x w = Reqb (round4 x) (round4 w).
Proof. reflexivity. Qed.

Section Match.
Variable ccc : carr.
Variable rm : respmat.
Variable freq : nat -> R.
Variable resp : R -> C.
Variable vb : nat -> R.
Variable P : nat.
Variable w : R.

Lemma tones_1 b1 C1 :
  cc_ok ccc 1 b1 C1 -> rm_ok rm [b1] (vbdot vb resp [freq 1%nat]) ->
  exists v, current_1_tone w ccc freq rm P b1 = Ok v /\
    forall i, v i = current P [Tone b1 (fun k => C1 k i)] [freq 1%nat] (vb i) resp w.
Proof.
  intros H1 HR. unfold current_1_tone. cbv zeta.
  destruct (foreach_sum (harm_range P)
    (fun a cur => if Reqb (round4 (IZR a * freq 1%nat)) (round4 w) then
      let* c := current_coeff_1_tone a ccc rm b1 in Ok (vadd cur c) else Ok cur)
    (fun a i => if Reqb (round4 (IZR a * freq 1%nat)) (round4 w) then
       coeff [Tone b1 (fun k => C1 k i)] [a] (fun ks => vbdot vb resp [freq 1%nat] ks i) else RtoC 0))
    with (acc := vzero) as [v [E H]].
  { intros a cur _.
    apply (foreach_match _ _ (fun i => coeff [Tone b1 (fun k => C1 k i)] [a] (fun ks => vbdot vb resp [freq 1%nat] ks i))).
    apply coeff_1; assumption. }
  exists v. split; [exact E|]. intros i. rewrite H, csum_harm. unfold vzero, current. rewrite Cplus_0_l.
  cbn [length]. rewrite csum_index_S. apply csum_ext. intros a _. rewrite csum_index_0.
  rewrite same_freq_Reqb. cbn [dot]. rewrite Rplus_0_r. reflexivity.
Qed.

Lemma tones_2 b1 b2 C1 C2 :
  cc_ok ccc 1 b1 C1 -> cc_ok ccc 2 b2 C2 -> rm_ok rm [b1; b2] (vbdot vb resp [freq 1%nat; freq 2%nat]) ->
  exists v, current_2_tones w ccc freq rm P b1 b2 = Ok v /\
    forall i, v i = current P [Tone b1 (fun k => C1 k i); Tone b2 (fun k => C2 k i)]
                            [freq 1%nat; freq 2%nat] (vb i) resp w.
Proof.
  intros H1 H2 HR. unfold current_2_tones. cbv zeta.
  set (fs := [freq 1%nat; freq 2%nat]) in *.
  set (ts := fun i => [Tone b1 (fun k => C1 k i); Tone b2 (fun k => C2 k i)]).
  set (T := fun a b i => if Reqb (round4 (IZR a * freq 1%nat + IZR b * freq 2%nat)) (round4 w)
             then coeff (ts i) [a; b] (fun ks => vbdot vb resp fs ks i) else RtoC 0).
  match goal with |- context [foreach (harm_range P) ?f vzero] =>
    destruct (foreach_sum (harm_range P) f (fun a i => csum (harm_range P) (fun b => T a b i))) with (acc := vzero)
     as [v [E H]] end.
  { intros a cur _. apply (foreach_sum (harm_range P) _ (T a)). intros b cur' _.
    apply (foreach_match _ _ (fun i => coeff (ts i) [a; b] (fun ks => vbdot vb resp fs ks i))).
    apply coeff_2; assumption. }
  exists v. split; [exact E|]. intros i. rewrite H, csum_harm. unfold vzero, current. rewrite Cplus_0_l.
  cbn [length]. rewrite csum_index_S. apply csum_ext. intros a _. rewrite csum_harm, csum_index_S.
  apply csum_ext. intros b _. rewrite csum_index_0. unfold T. rewrite same_freq_Reqb. unfold fs. cbn [dot].
  rewrite Rplus_0_r. reflexivity.
Qed.

Lemma tones_3 b1 b2 b3 C1 C2 C3 :
  cc_ok ccc 1 b1 C1 -> cc_ok ccc 2 b2 C2 -> cc_ok ccc 3 b3 C3 ->
  rm_ok rm [b1; b2; b3] (vbdot vb resp [freq 1%nat; freq 2%nat; freq 3%nat]) ->
  exists v, current_3_tones w ccc freq rm P b1 b2 b3 = Ok v /\
    forall i, v i = current P [Tone b1 (fun k => C1 k i); Tone b2 (fun k => C2 k i); Tone b3 (fun k => C3 k i)]
                            [freq 1%nat; freq 2%nat; freq 3%nat] (vb i) resp w.
Proof.
  intros H1 H2 H3 HR. unfold current_3_tones. cbv zeta.
  set (fs := [freq 1%nat; freq 2%nat; freq 3%nat]) in *.
  set (ts := fun i => [Tone b1 (fun k => C1 k i); Tone b2 (fun k => C2 k i); Tone b3 (fun k => C3 k i)]).
  set (T := fun a b c i => if Reqb (round4 (IZR a * freq 1%nat + IZR b * freq 2%nat + IZR c * freq 3%nat)) (round4 w)
             then coeff (ts i) [a; b; c] (fun ks => vbdot vb resp fs ks i) else RtoC 0).
  match goal with |- context [foreach (harm_range P) ?f vzero] =>
    destruct (foreach_sum (harm_range P) f
      (fun a i => csum (harm_range P) (fun b => csum (harm_range P) (fun c => T a b c i)))) with (acc := vzero)
     as [v [E H]] end.
  { intros a cur _. apply (foreach_sum (harm_range P) _ (fun b i => csum (harm_range P) (fun c => T a b c i))).
    intros b cur' _. apply (foreach_sum (harm_range P) _ (T a b)). intros c cur'' _.
    apply (foreach_match _ _ (fun i => coeff (ts i) [a; b; c] (fun ks => vbdot vb resp fs ks i))).
    apply coeff_3; assumption. }
  exists v. split; [exact E|]. intros i. rewrite H, csum_harm. unfold vzero, current. rewrite Cplus_0_l.
  cbn [length]. rewrite csum_index_S. apply csum_ext. intros a _. rewrite csum_harm, csum_index_S.
  apply csum_ext. intros b _. rewrite csum_harm, csum_index_S.
  apply csum_ext. intros c _. rewrite csum_index_0. unfold T. rewrite same_freq_Reqb. unfold fs. cbn [dot].
  rewrite Rplus_0_r, !Rplus_assoc. reflexivity.
Qed.

Lemma tones_4 b1 b2 b3 b4 C1 C2 C3 C4 :
  cc_ok ccc 1 b1 C1 -> cc_ok ccc 2 b2 C2 -> cc_ok ccc 3 b3 C3 -> cc_ok ccc 4 b4 C4 ->
  rm_ok rm [b1; b2; b3; b4] (vbdot vb resp [freq 1%nat; freq 2%nat; freq 3%nat; freq 4%nat]) ->
  exists v, current_4_tones w ccc freq rm P b1 b2 b3 b4 = Ok v /\
    forall i, v i = current P [Tone b1 (fun k => C1 k i); Tone b2 (fun k => C2 k i); Tone b3 (fun k => C3 k i);
                               Tone b4 (fun k => C4 k i)]
                            [freq 1%nat; freq 2%nat; freq 3%nat; freq 4%nat] (vb i) resp w.
Proof.
  intros H1 H2 H3 H4 HR. unfold current_4_tones. cbv zeta.
  set (fs := [freq 1%nat; freq 2%nat; freq 3%nat; freq 4%nat]) in *.
  set (ts := fun i => [Tone b1 (fun k => C1 k i); Tone b2 (fun k => C2 k i); Tone b3 (fun k => C3 k i);
                       Tone b4 (fun k => C4 k i)]).
  set (T := fun a b c d i => if Reqb (round4 (IZR a * freq 1%nat + IZR b * freq 2%nat + IZR c * freq 3%nat
                                              + IZR d * freq 4%nat)) (round4 w)
             then coeff (ts i) [a; b; c; d] (fun ks => vbdot vb resp fs ks i) else RtoC 0).
  match goal with |- context [foreach (harm_range P) ?f vzero] =>
    destruct (foreach_sum (harm_range P) f
      (fun a i => csum (harm_range P) (fun b => csum (harm_range P) (fun c => csum (harm_range P) (fun d => T a b c d i)))))
       with (acc := vzero) as [v [E H]] end.
  { intros a cur _.
    apply (foreach_sum (harm_range P) _ (fun b i => csum (harm_range P) (fun c => csum (harm_range P) (fun d => T a b c d i)))).
    intros b cur' _. apply (foreach_sum (harm_range P) _ (fun c i => csum (harm_range P) (fun d => T a b c d i))).
    intros c cur'' _. apply (foreach_sum (harm_range P) _ (T a b c)). intros d cur3 _.
    apply (foreach_match _ _ (fun i => coeff (ts i) [a; b; c; d] (fun ks => vbdot vb resp fs ks i))).
    apply coeff_4; assumption. }
  exists v. split; [exact E|]. intros i. rewrite H, csum_harm. unfold vzero, current. rewrite Cplus_0_l.
  cbn [length]. rewrite csum_index_S. apply csum_ext. intros a _. rewrite csum_harm, csum_index_S.
  apply csum_ext. intros b _. rewrite csum_harm, csum_index_S. apply csum_ext. intros c _. rewrite csum_harm, csum_index_S.
  apply csum_ext. intros d _. rewrite csum_index_0. unfold T. rewrite same_freq_Reqb. unfold fs. cbn [dot].
  rewrite Rplus_0_r, !Rplus_assoc. reflexivity.
Qed.
End Match.

(* ------------------------------------------------------------------ *)
(** ** Response matrices *)

Lemma ind_array_nth b k : - Z.of_nat b <= k <= Z.of_nat b -> nth (wrapk b k) (ind_array b) 0 = k.
Proof.
  intros H. unfold ind_array, wrapk, zrange. destruct (Z.ltb_spec k 0).
  - rewrite app_nth2; rewrite map_length, seq_length; [|lia].
    rewrite (nth_indep _ 0 (- Z.of_nat b + Z.of_nat 0)) by (rewrite map_length, seq_length; lia).
    rewrite (map_nth (fun i => - Z.of_nat b + Z.of_nat i)). rewrite seq_nth by lia. lia.
  - rewrite app_nth1 by (rewrite map_length, seq_length; lia).
    rewrite (nth_indep _ 0 (0 + Z.of_nat 0)) by (rewrite map_length, seq_length; lia).
    rewrite (map_nth (fun i => 0 + Z.of_nat i)). rewrite seq_nth by lia. lia.
Qed.

Fixpoint keys (bs : list nat) (ks : list Z) : list nat :=
  match bs, ks with b :: bs', k :: ks' => wrapk b k :: keys bs' ks' | _, _ => [] end.

Definition box_shape (bs : list nat) : list nat := map (fun b => b * 2 + 1)%nat bs.

Lemma nbidxs_box bs : forall ks, in_box bs ks -> nbidxs (box_shape bs) ks = Ok (keys bs ks).
Proof.
  intros ks H. induction H as [|b k bs ks Hk H IH]; [reflexivity|].
  simpl box_shape. cbn [nbidxs keys]. replace (b * 2 + 1)%nat with (2 * b + 1)%nat by lia.
  rewrite nbidx_sym by assumption. cbn [bind]. fold (box_shape bs). now rewrite IH.
Qed.

Lemma keys_inj bs : forall ks ls, in_box bs ks -> in_box bs ls -> keys bs ks = keys bs ls -> ks = ls.
Proof.
  intros ks ls H. revert ls. induction H as [|b k bs ks Hk H IH]; intros ls H'; inversion H'; subst; [reflexivity|].
  simpl. intros E. inversion E as [[E1 E2]]. f_equal; [|now apply IH].
  apply (wrapk_inj b); assumption.
Qed.

(** A loop nest is one loop over the product of the ranges. *)
Lemma foreach_flat_map {A B S} (g : A -> list B) (l : list A) (body : B -> S -> res S) acc :
  foreach (flat_map g l) body acc = foreach l (fun x s => foreach (g x) body s) acc.
Proof.
  revert acc. induction l as [|x l IH]; intros acc; [reflexivity|]. simpl flat_map. rewrite foreach_app. cbn [foreach].
  destruct (foreach (g x) body acc); cbn [bind]; [apply IH|reflexivity].
Qed.

Lemma foreach_map {A B S} (g : A -> B) (l : list A) (body : B -> S -> res S) acc :
  foreach (map g l) body acc = foreach l (fun x s => body (g x) s) acc.
Proof.
  revert acc. induction l as [|x l IH]; intros acc; [reflexivity|]. cbn [map foreach].
  destruct (body (g x) acc); cbn [bind]; [apply IH|reflexivity].
Qed.

Lemma in_flat_box b (l : list (list Z)) ks :
  In ks (flat_map (fun k => map (cons k) l) (sym b)) <->
  exists k ks', ks = k :: ks' /\ - Z.of_nat b <= k <= Z.of_nat b /\ In ks' l.
Proof.
  rewrite in_flat_map. split.
  - intros [k [Hk H]]. apply in_map_iff in H. destruct H as [ks' [<- H]]. exists k, ks'.
    apply in_sym in Hk. auto.
  - intros [k [ks' [-> [Hk H]]]]. exists k. rewrite in_sym. split; [assumption|]. now apply in_map.
Qed.

Fixpoint boxes (bs : list nat) : list (list Z) :=
  match bs with [] => [[]] | b :: bs' => flat_map (fun k => map (cons k) (boxes bs')) (sym b) end.

Lemma in_boxes bs ks : In ks (boxes bs) <-> in_box bs ks.
Proof.
  revert ks. induction bs as [|b bs IH]; intros ks.
  - simpl. split; [intros [<-|[]]; constructor|]. intros H; inversion H; now left.
  - cbn [boxes]. rewrite in_flat_box. split.
    + intros [k [ks' [-> [Hk H]]]]. constructor; [assumption|]. now apply IH.
    + intros H. inversion H; subst. do 2 eexists. split; [reflexivity|]. split; [assumption|]. now apply IH.
Qed.

Lemma vset_loop bs (V : list Z -> nat -> R) : forall (l : list (list Z)) m0,
  (forall ks, In ks l -> in_box bs ks) ->
  exists m, foreach l (fun ks volt => vset (box_shape bs) volt ks (V ks)) m0 = Ok m /\
    forall ks i, in_box bs ks -> m (keys bs ks) i = if in_dec (list_eq_dec Z.eq_dec) ks l then V ks i else m0 (keys bs ks) i.
Proof.
  induction l as [|k0 l IH]; intros m0 H.
  - exists m0. split; [reflexivity|]. intros. reflexivity.
  - cbn [foreach]. unfold vset at 1. rewrite nbidxs_box by (apply H; now left). cbn [bind].
    match goal with |- context [foreach l _ ?m1] => destruct (IH m1) as [m [E Hm]] end.
    { intros; apply H; now right. }
    exists m. split; [exact E|]. intros ks i Hks. rewrite Hm by assumption. cbv beta.
    assert (Hk0 : in_box bs k0) by (apply H; now left).
    unfold idxs_eqb. destruct (in_dec _ ks l) as [I|I]; destruct (in_dec _ ks (k0 :: l)) as [I'|I'];
      destruct (list_eq_dec Nat.eq_dec (keys bs ks) (keys bs k0)) as [e|e]; try reflexivity.
    + exfalso; apply I'; now right.
    + exfalso; apply I'; now right.
    + apply keys_inj in e; [now subst|assumption|assumption].
    + destruct I' as [->|I']; [congruence|contradiction].
    + apply keys_inj in e; [|assumption|assumption]. exfalso. apply I'. now left.
Qed.

Lemma rm_box bs ks f n : in_box bs ks ->
  rm_get {| rm_shape := box_shape bs; rm_npts := n; rm_at := f |} ks = Ok (f (keys bs ks)).
Proof. intros H. unfold rm_get. cbn [rm_shape rm_at]. now rewrite nbidxs_box. Qed.

(** The matrices built by interpolate_respfn contain resp(vb + sum k_f freq_f). *)

Lemma interp_1 resp n vb freq b1 : rm_ok (interpolate_respfn_1_tone resp n vb freq b1) [b1] (vbdot vb resp [freq 1%nat]).
Proof.
  intros ks H. unfold interpolate_respfn_1_tone. change [(b1 * 2 + 1)%nat] with (box_shape [b1]).
  rewrite rm_box by assumption. eexists. split; [reflexivity|]. intros i. cbv zeta.
  inversion H as [|? k ? ? Hk H1]; subst. inversion H1; subst. cbn [keys].
  rewrite ind_array_nth by assumption. unfold vbdot. cbn [dot]. now rewrite Rplus_0_r.
Qed.

Lemma interp_2 resp n vb freq b1 b2 :
  rm_ok (interpolate_respfn_2_tone resp n vb freq b1 b2) [b1; b2] (vbdot vb resp [freq 1%nat; freq 2%nat]).
Proof.
  intros ks H. unfold interpolate_respfn_2_tone. change [(b1 * 2 + 1)%nat; (b2 * 2 + 1)%nat] with (box_shape [b1; b2]).
  rewrite rm_box by assumption. eexists. split; [reflexivity|]. intros i. cbv zeta.
  inversion H as [|? k ? ? Hk H1]; subst. inversion H1 as [|? k2 ? ? Hk2 H2]; subst. inversion H2; subst. cbn [keys].
  rewrite !ind_array_nth by assumption. unfold vbdot. cbn [dot]. now rewrite Rplus_0_r, Rplus_assoc.
Qed.

Lemma interp_3 resp n vb freq b1 b2 b3 :
  exists rm, interpolate_respfn_3_tone resp n vb freq b1 b2 b3 = Ok rm /\
    rm_shape rm = box_shape [b1; b2; b3] /\ rm_npts rm = n /\
    rm_ok rm [b1; b2; b3] (vbdot vb resp [freq 1%nat; freq 2%nat; freq 3%nat]).
Proof.
  unfold interpolate_respfn_3_tone. cbv zeta.
  set (V := fun ks i => match ks with [k; l; m] =>
     (vb i + IZR k * freq 1%nat + IZR l * freq 2%nat + IZR m * freq 3%nat)%R | _ => 0%R end).
  destruct (vset_loop [b1; b2; b3] V (boxes [b1; b2; b3]) (fun _ _ => 0%R)) as [m [E Hm]].
  { intros ks. apply in_boxes. }
  match goal with |- context [bind ?f _] => assert (Ef : f = Ok m) end.
  { rewrite <- E. cbn [boxes]. rewrite foreach_flat_map. apply foreach_ext. intros k Hk acc.
    rewrite foreach_map, foreach_flat_map. apply foreach_ext. intros l Hl acc'.
    rewrite foreach_map, foreach_flat_map. apply foreach_ext. intros q Hq acc''. cbn [map foreach].
    match goal with |- ?a = bind ?b _ => change b with a; destruct a end; reflexivity. }
  rewrite Ef. cbn [bind]. eexists. split; [reflexivity|]. split; [reflexivity|]. split; [reflexivity|].
  intros ks H. change [(b1 * 2 + 1)%nat; (b2 * 2 + 1)%nat; (b3 * 2 + 1)%nat] with (box_shape [b1; b2; b3]).
  rewrite rm_box by assumption. eexists. split; [reflexivity|]. intros i. cbv beta. rewrite Hm by assumption.
  destruct (in_dec _ _ _) as [_|C]; [|exfalso; apply C; now apply in_boxes].
  inversion H as [|? k ? ? Hk H1]; subst. inversion H1 as [|? k2 ? ? Hk2 H2]; subst.
  inversion H2 as [|? k3 ? ? Hk3 H3]; subst. inversion H3; subst. unfold V, vbdot. cbn [dot].
  now rewrite Rplus_0_r, !Rplus_assoc.
Qed.

Lemma interp_4 resp n vb freq b1 b2 b3 b4 :
  exists rm, interpolate_respfn_4_tone resp n vb freq b1 b2 b3 b4 = Ok rm /\
    rm_shape rm = box_shape [b1; b2; b3; b4] /\ rm_npts rm = n /\
    rm_ok rm [b1; b2; b3; b4] (vbdot vb resp [freq 1%nat; freq 2%nat; freq 3%nat; freq 4%nat]).
Proof.
  unfold interpolate_respfn_4_tone. cbv zeta.
  set (V := fun ks i => match ks with [k; l; m; q] =>
     (vb i + IZR k * freq 1%nat + IZR l * freq 2%nat + IZR m * freq 3%nat + IZR q * freq 4%nat)%R | _ => 0%R end).
  destruct (vset_loop [b1; b2; b3; b4] V (boxes [b1; b2; b3; b4]) (fun _ _ => 0%R)) as [m [E Hm]].
  { intros ks. apply in_boxes. }
  match goal with |- context [bind ?f _] => assert (Ef : f = Ok m) end.
  { rewrite <- E. cbn [boxes]. rewrite foreach_flat_map. apply foreach_ext. intros k Hk acc.
    rewrite foreach_map, foreach_flat_map. apply foreach_ext. intros l Hl acc'.
    rewrite foreach_map, foreach_flat_map. apply foreach_ext. intros q Hq acc''.
    rewrite foreach_map, foreach_flat_map. apply foreach_ext. intros q' Hq' acc3. cbn [map foreach].
    match goal with |- ?a = bind ?b _ => change b with a; destruct a end; reflexivity. }
  rewrite Ef. cbn [bind]. eexists. split; [reflexivity|]. split; [reflexivity|]. split; [reflexivity|].
  intros ks H.
  change [(b1 * 2 + 1)%nat; (b2 * 2 + 1)%nat; (b3 * 2 + 1)%nat; (b4 * 2 + 1)%nat] with (box_shape [b1; b2; b3; b4]).
  rewrite rm_box by assumption. eexists. split; [reflexivity|]. intros i. cbv beta. rewrite Hm by assumption.
  destruct (in_dec _ _ _) as [_|C]; [|exfalso; apply C; now apply in_boxes].
  inversion H as [|? k ? ? Hk H1]; subst. inversion H1 as [|? k2 ? ? Hk2 H2]; subst.
  inversion H2 as [|? k3 ? ? Hk3 H3]; subst. inversion H3 as [|? k4 ? ? Hk4 H4]; subst. inversion H4; subst.
  unfold V, vbdot. cbn [dot]. now rewrite Rplus_0_r, !Rplus_assoc.
Qed.

Lemma unpack_ok num_b num_f : (num_f <= length (nbtuple num_b num_f))%nat ->
  unpack_num_b num_b num_f = Ok (firstn num_f (nbtuple num_b num_f)).
Proof.
  destruct num_b as [n|l]; simpl.
  - intros _. rewrite firstn_all2; [reflexivity|]. now rewrite repeat_length.
  - intros H. apply Nat.leb_le in H. now rewrite H.
Qed.

Lemma interp_ok cct resp num_b :
  (1 <= q_num_f cct <= 4)%nat -> (q_num_f cct <= length (nbtuple num_b (q_num_f cct)))%nat ->
  let bs := firstn (q_num_f cct) (nbtuple num_b (q_num_f cct)) in
  exists rm, interpolate_respfn cct resp num_b = Ok rm /\ rm_shape rm = box_shape bs /\ rm_npts rm = q_npts cct /\
    rm_ok rm bs (vbdot (q_vb cct) resp (freqs cct)).
Proof.
  intros Hf Hl bs. unfold interpolate_respfn. rewrite unpack_ok by assumption. cbn [bind]. fold bs.
  assert (Lb : length bs = q_num_f cct) by (unfold bs; apply firstn_length_le; assumption).
  unfold freqs. clearbody bs. clear Hl. revert Lb. destruct cct as [F P np fr vb].
  cbn [q_num_f q_npts q_vb q_freq] in *.
  destruct F as [|[|[|[|[|F]]]]]; try lia; intros Lb.
  - destruct bs as [|b1 [|]]; try discriminate Lb. eexists. split; [reflexivity|]. split; [reflexivity|].
    split; [reflexivity|]. apply interp_1.
  - destruct bs as [|b1 [|b2 [|]]]; try discriminate Lb. eexists. split; [reflexivity|]. split; [reflexivity|].
    split; [reflexivity|]. apply interp_2.
  - destruct bs as [|b1 [|b2 [|b3 [|]]]]; try discriminate Lb. apply interp_3.
  - destruct bs as [|b1 [|b2 [|b3 [|b4 [|]]]]]; try discriminate Lb. apply interp_4.
Qed.

(* ------------------------------------------------------------------ *)
(** ** The whole function *)

Lemma current_n_tones_spec J vj cct resp num_b ccc rm w :
  (1 <= q_num_f cct <= 4)%nat -> (1 <= q_num_p cct)%nat ->
  (q_num_f cct <= length (nbtuple num_b (q_num_f cct)))%nat ->
  calculate_phase_factor_coeff J vj (q_freq cct) (q_num_f cct) (q_num_p cct) num_b = Ok ccc ->
  rm_ok rm (firstn (q_num_f cct) (nbtuple num_b (q_num_f cct))) (vbdot (q_vb cct) resp (freqs cct)) ->
  exists v, current_n_tones (q_num_f cct) w ccc (q_freq cct) rm (q_num_p cct)
              (firstn (q_num_f cct) (nbtuple num_b (q_num_f cct))) = Ok v /\
    forall i, v i = current (q_num_p cct) (tones J vj cct num_b i) (freqs cct) (q_vb cct i) resp w.
Proof.
  intros Hf Hp Hl EC HR.
  destruct (calculate_phase_factor_coeff_spec J vj (q_freq cct) (q_num_f cct) (q_num_p cct) num_b) as
    [ccc' [EC' [Hnf [Hnk HC]]]]; try lia. rewrite EC in EC'. inversion EC'; subst ccc'. clear EC'.
  set (nbt := nbtuple num_b (q_num_f cct)) in *.
  assert (CC : forall f, (1 <= f <= q_num_f cct)%nat ->
    cc_ok ccc (Z.of_nat f) (nth (f - 1) nbt O)
      (fun k i => phase_factor (list_max nbt) (nth (f - 1) nbt O) (fun p => JA J vj (q_freq cct) f p i) (q_num_p cct) k)).
  { intros f Hf' k Hk.
    assert (Hb : (nth (f - 1) nbt O <= list_max nbt)%nat) by (apply in_list_max, nth_In; lia).
    unfold cc_get. rewrite Hnf, nbidx_nat by lia. cbn [bind]. rewrite Hnk, nbidx_sym by lia. cbn [bind].
    eexists. split; [reflexivity|]. intros i. apply HC; lia. }
  clear HC Hnf Hnk EC. unfold tones, freqs in *. fold nbt. clearbody nbt.
  destruct cct as [F P np fr vb]. cbn [q_num_f q_npts q_vb q_freq q_num_p] in *.
  destruct F as [|[|[|[|[|F]]]]]; try lia.
  - destruct nbt as [|b1 nbt]; [simpl in Hl; lia|]. apply tones_1; [apply (CC 1%nat); lia|exact HR].
  - destruct nbt as [|b1 [|b2 nbt]]; try (simpl in Hl; lia).
    apply tones_2; [apply (CC 1%nat); lia|apply (CC 2%nat); lia|exact HR].
  - destruct nbt as [|b1 [|b2 [|b3 nbt]]]; try (simpl in Hl; lia).
    apply tones_3; [apply (CC 1%nat); lia|apply (CC 2%nat); lia|apply (CC 3%nat); lia|exact HR].
  - destruct nbt as [|b1 [|b2 [|b3 [|b4 nbt]]]]; try (simpl in Hl; lia).
    apply tones_4; [apply (CC 1%nat); lia|apply (CC 2%nat); lia|apply (CC 3%nat); lia|apply (CC 4%nat); lia|exact HR].
Qed.

Lemma current_round4 P ts fs vb resp w : current P ts fs vb resp (round4 w) = current P ts fs vb resp w.
Proof. unfold current, same_freq. now rewrite round4_idem. Qed.

Lemma tab_ext {A} n (f g : nat -> A) : (forall i, (i < n)%nat -> f i = g i) -> tab n f = tab n g.
Proof. intros H. unfold tab. apply map_ext_in. intros i Hi. apply in_seq in Hi. apply H. lia. Qed.

Lemma mapM_tab {A} (f : A -> res vec) (g : A -> vec) n l :
  (forall x, In x l -> exists v, f x = Ok v /\ forall i, v i = g x i) ->
  exists vs, mapM f l = Ok vs /\ map (tab n) vs = map (fun x => tab n (g x)) l.
Proof.
  induction l as [|x l IH]; intros H; simpl.
  - exists []. auto.
  - destruct (H x (or_introl eq_refl)) as [v [E Hv]]. rewrite E. cbn [bind].
    destruct IH as [vs [E' Hvs]]. { intros; apply H; now right. }
    rewrite E'. cbn [bind]. exists (v :: vs). split; [reflexivity|]. simpl. rewrite Hvs. f_equal.
    apply tab_ext. intros; apply Hv.
Qed.

Theorem qtcurrent_spec J vj cct resp fl num_b rmo :
  args_ok cct num_b ->
  match rmo with None => True | Some rm =>
    matrix_for cct resp (firstn (q_num_f cct) (nbtuple num_b (q_num_f cct))) rm end ->
  qtcurrent J vj cct resp fl num_b rmo =
  match fl with
  | FList l => Ok (QRows (map (spec_row J vj cct resp num_b) l))
  | FScalar w => Ok (if Reqb (round4 w) 0 then QReal (map Re (spec_row J vj cct resp num_b w))
                     else QRow (spec_row J vj cct resp num_b w))
  end.
Proof.
  intros [Hf [Hp [Hfreq Hnb]]] Hrm. unfold qtcurrent.
  assert (G : forallb (fun f => Rltb 0 (q_freq cct f)) (seq 1 (q_num_f cct)) = true).
  { apply forallb_forall. intros f Hin. apply in_seq in Hin. unfold Rltb. destruct (Rlt_dec _ _); [reflexivity|].
    exfalso. apply n. apply Hfreq. lia. }
  rewrite G. cbn [guard bind].
  assert (Hl : (q_num_f cct <= length (nbtuple num_b (q_num_f cct)))%nat).
  { destruct num_b; simpl; [rewrite repeat_length; lia|assumption]. }
  rewrite unpack_ok by assumption. cbn [bind].
  destruct (calculate_phase_factor_coeff_spec J vj (q_freq cct) (q_num_f cct) (q_num_p cct) num_b) as
    [ccc [EC _]]; try lia. rewrite EC. cbn [bind].
  match goal with |- context [bind ?m _] => assert (ER : exists rm, m = Ok rm /\
    rm_ok rm (firstn (q_num_f cct) (nbtuple num_b (q_num_f cct))) (vbdot (q_vb cct) resp (freqs cct))) end.
  { destruct rmo as [rm|].
    - destruct Hrm as [Hs [Hn Hok]]. exists rm. rewrite Hs, Hn, !Nat.eqb_refl. split; [reflexivity|exact Hok].
    - destruct (interp_ok cct resp num_b Hf Hl) as [rm [E [_ [_ Hok]]]]. exists rm. auto. }
  destruct ER as [rm [ER HR]]. rewrite ER. cbn [bind].
  destruct (mapM_tab (fun w => current_n_tones (q_num_f cct) w ccc (q_freq cct) rm (q_num_p cct)
        (firstn (q_num_f cct) (nbtuple num_b (q_num_f cct))))
     (fun w i => current (q_num_p cct) (tones J vj cct num_b i) (freqs cct) (q_vb cct i) resp w)
     (q_npts cct) (map round4 (flist fl))) as [vs [EV HV]].
  { intros w _. apply current_n_tones_spec; assumption. }
  fold (flist fl). rewrite EV. cbn [bind]. rewrite HV, map_map.
  assert (EM : map (fun x => tab (q_npts cct) (fun i =>
      current (q_num_p cct) (tones J vj cct num_b i) (freqs cct) (q_vb cct i) resp (round4 x))) (flist fl)
    = map (spec_row J vj cct resp num_b) (flist fl)).
  { apply map_ext. intros w. unfold spec_row. apply tab_ext. intros i _. apply current_round4. }
  rewrite EM. destruct fl as [l|w]; cbn [flist map]; [reflexivity|].
  destruct (Reqb (round4 w) 0); reflexivity.
Qed.
