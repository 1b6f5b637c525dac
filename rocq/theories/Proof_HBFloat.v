(** harmonic_balance asks for frequencies that binary64 recognises. *)
From Coq Require Import List ZArith Lia Bool Arith Reals Lra String FunctionalExtensionality.
From Coquelicot Require Import Rcomplements Complex.
From Flocq Require Import Core.
From Verif Require Import Base Sums Round Model_QtCurrent Spec_QtCurrent Proof_QtCurrent Proof_QtSym Spec_QtApi Proof_QtApi Model_Circuit Model_HB Spec_HB Spec_HB2 Model_QtFloat Spec_QtFloat Proof_QtFloat Proof_QtFloat2 Model_HBFloat Proof_HB3.
Import ListNotations.
Local Notation length := List.length.
Open Scope R_scope.

(** The computed frequency of a mixing product. *)
Definition fdot (a : list Z) (fs : list R) : R :=
  match a, fs with
  | a0 :: a', f0 :: fs' => fold_left (fun s x => fadd s (fmul (fst x) (snd x))) (List.combine a' fs') (fmul a0 f0)
  | _, _ => 0
  end.

Section Tones.
Variables (P : nat) (freq : nat -> R) (w : fnum) (w' : R).
Let dec n := forall a, In a (index_vectors P n) -> Reqb (np_round4 (fdot a (map freq (seq 1 n)))) (value (round_f w)) = Reqb (round4 (dot a (map freq (seq 1 n)))) (round4 w').
Lemma n_tones n ccc rm nb : dec n -> current_n_tones_f n w ccc freq rm P nb = current_n_tones n w' ccc freq rm P nb.
Proof.
  intros D. destruct n as [|[|[|[|[|n]]]]]; try reflexivity; cbn [current_n_tones_f current_n_tones].
  - destruct nb as [|b1 [|]]; try reflexivity. unfold current_1_tone_f, current_1_tone. apply foreach_ext. intros a cur Ha.
    assert (I : In [a] (index_vectors P 1)) by (apply (in_index P [a]); intros x [<- |[]]; assumption).
    specialize (D _ I). cbn [fdot map seq List.combine fold_left dot fst snd] in D. rewrite D.
    now replace (IZR a * freq 1%nat + 0) with (IZR a * freq 1%nat) by ring.
  - destruct nb as [|b1 [|b2 [|]]]; try reflexivity. unfold current_2_tones_f, current_2_tones. apply foreach_ext. intros a cur Ha. apply foreach_ext. intros b cur' Hb.
    assert (I : In [a; b] (index_vectors P 2)) by (apply (in_index P [a; b]); intros x [<- |[<- |[]]]; assumption).
    specialize (D _ I). cbn [fdot map seq List.combine fold_left dot fst snd] in D. rewrite D.
    now replace (IZR a * freq 1%nat + (IZR b * freq 2%nat + 0)) with (IZR a * freq 1%nat + IZR b * freq 2%nat) by ring.
  - destruct nb as [|b1 [|b2 [|b3 [|]]]]; try reflexivity. unfold current_3_tones_f, current_3_tones. apply foreach_ext. intros a cur Ha. apply foreach_ext. intros b cur' Hb. apply foreach_ext. intros c cur2 Hc.
    assert (I : In [a; b; c] (index_vectors P 3)) by (apply (in_index P [a; b; c]); intros x [<- |[<- |[<- |[]]]]; assumption).
    specialize (D _ I). cbn [fdot map seq List.combine fold_left dot fst snd] in D. rewrite D.
    now replace (IZR a * freq 1%nat + (IZR b * freq 2%nat + (IZR c * freq 3%nat + 0))) with (IZR a * freq 1%nat + IZR b * freq 2%nat + IZR c * freq 3%nat) by ring.
  - destruct nb as [|b1 [|b2 [|b3 [|b4 [|]]]]]; try reflexivity. unfold current_4_tones_f, current_4_tones. apply foreach_ext. intros a cur Ha. apply foreach_ext. intros b cur' Hb. apply foreach_ext. intros c cur2 Hc. apply foreach_ext. intros d cur3 Hd.
    assert (I : In [a; b; c; d] (index_vectors P 4)) by (apply (in_index P [a; b; c; d]); intros x [<- |[<- |[<- |[<- |[]]]]]; assumption).
    specialize (D _ I). cbn [fdot map seq List.combine fold_left dot fst snd] in D. rewrite D.
    now replace (IZR a * freq 1%nat + (IZR b * freq 2%nat + (IZR c * freq 3%nat + (IZR d * freq 4%nat + 0)))) with (IZR a * freq 1%nat + IZR b * freq 2%nat + IZR c * freq 3%nat + IZR d * freq 4%nat) by ring.
Qed.
End Tones.

(** ** Rounding *)
Lemma rnd_rnd x : rnd (rnd x) = rnd x.
Proof. apply round_generic; [typeclasses eauto|]. apply generic_format_round; [apply FLT_exp_valid; reflexivity|typeclasses eauto]. Qed.
Lemma fmul_0 g : fmul 0 g = 0.
Proof. unfold fmul. rewrite Rmult_0_l. apply rnd_0. Qed.
Lemma fadd_0_r a g : fadd (fmul a g) 0 = fmul a g.
Proof. unfold fadd. rewrite Rplus_0_r. apply rnd_rnd. Qed.
Lemma fadd_0_l a g : fadd 0 (fmul a g) = fmul a g.
Proof. unfold fadd. rewrite Rplus_0_l. apply rnd_rnd. Qed.
Lemma fadd_00 : fadd 0 0 = 0.
Proof. unfold fadd. rewrite Rplus_0_l. apply rnd_0. Qed.

Lemma np_err y : Rabs y <= 400002 -> Rabs (np_round4 y - y) <= 5 / 100000 + / 1000000000.
Proof.
  intros Hy. unfold np_round4. assert (Hy' : Rabs (y * 10000) <= 4000020000) by (rewrite Rabs_mult, (Rabs_pos_eq 10000) by lra; lra).
  assert (E := rnd_err _ _ Hy'). set (z := rnd (y * 10000)) in *. assert (S := rint_spec z). set (n := rint z) in *.
  apply Rabs_le_between in E, S, Hy'. unfold u53 in E.
  assert (Hn : Rabs (IZR n / 10000) <= 400003) by (apply Rabs_le; lra). assert (F := rnd_err _ _ Hn). apply Rabs_le_between in F. unfold u53 in F. apply Rabs_le. lra.
Qed.
Lemma np_idem y : Rabs y <= 400002 -> np_round4 (np_round4 y) = np_round4 y.
Proof.
  intros Hy. unfold np_round4 at 2 3. assert (Hy' : Rabs (y * 10000) <= 4000020000) by (rewrite Rabs_mult, (Rabs_pos_eq 10000) by lra; lra).
  assert (E := rnd_err _ _ Hy'). set (z := rnd (y * 10000)) in *. assert (S := rint_spec z). set (n := rint z) in *.
  apply Rabs_le_between in E, S, Hy'. unfold u53 in E.
  assert (Hn : Rabs (IZR n) <= 10000000001) by (apply Rabs_le; lra). assert (G := grid n Hn).
  apply np_near; apply Rabs_le_between in G, Hn; apply Rabs_le; lra.
Qed.
Lemma round4_err x : Rabs (round4 x - x) <= 5 / 100000.
Proof. unfold round4, round_dec. replace (10 ^ 4) with 10000 by ring. assert (S := rint_spec (x * 10000)). apply Rabs_le_between in S. apply Rabs_le. lra. Qed.

Lemma fold_err l : forall s s' k, Rabs s' <= 100000 * k -> Rabs (s - s') <= 3 / 10000000000 * k -> 0 <= k -> k + INR (length l) <= 4 ->
  (forall x, In x l -> Rabs (IZR (fst x) * snd x) <= 100000 /\ Rabs (fmul (fst x) (snd x) - IZR (fst x) * snd x) <= / 10000000000) ->
  let t := fold_left (fun s x => s + IZR (fst x) * snd x) l s' in
  Rabs t <= 400000 /\ Rabs (fold_left (fun s x => fadd s (fmul (fst x) (snd x))) l s - t) <= 12 / 10000000000.
Proof.
  induction l as [|x l IH]; intros s s' k B E K L H t; unfold t; clear t.
  - cbn [fold_left length INR] in *. split; lra.
  - cbn [length] in L. rewrite S_INR in L. assert (L0 := pos_INR (length l)). cbn [fold_left]. destruct (H x (or_introl eq_refl)) as [Bx Ex].
    assert (Bs : Rabs (s' + IZR (fst x) * snd x) <= 100000 * (k + 1)) by (apply Rabs_le_between in B, Bx; apply Rabs_le; lra).
    apply IH with (k + 1); [exact Bs| |lra|lra|intros y Hy; apply H; now right].
    assert (A := fadd_err s (fmul (fst x) (snd x)) s' (IZR (fst x) * snd x) (3 / 10000000000 * k) ltac:(lra) E Ex ltac:(lra)). lra.
Qed.
Lemma fold_dot a : forall fs s, fold_left (fun s x => s + IZR (fst x) * snd x) (List.combine a fs) s = s + dot a fs.
Proof.
  induction a as [|x a IH]; intros fs s; [cbn; ring|]. destruct fs as [|f fs]; [cbn; ring|]. cbn [List.combine fold_left fst snd dot]. rewrite IH. ring.
Qed.
Lemma fdot_err P q a : (1 <= q_num_f q <= 4)%nat -> (forall f, (1 <= f <= q_num_f q)%nat -> INR P * Rabs (q_freq q f) <= 100000) -> In a (index_vectors P (q_num_f q)) ->
  Rabs (dot a (freqs q)) <= 400000 /\ Rabs (fdot a (freqs q) - dot a (freqs q)) <= 12 / 10000000000.
Proof.
  intros HF Hm I. apply in_index_vectors in I. destruct I as [La Fa].
  assert (G : forall x, In x (List.combine a (freqs q)) -> Rabs (IZR (fst x) * snd x) <= 100000 /\ Rabs (fmul (fst x) (snd x) - IZR (fst x) * snd x) <= / 10000000000).
  { intros [x g] Hx. cbn [fst snd]. assert (Hx1 := in_combine_l _ _ _ _ Hx). assert (Hx2 := in_combine_r _ _ _ _ Hx).
    unfold freqs in Hx2. apply in_map_iff in Hx2. destruct Hx2 as [f [<- Hf]]. apply in_seq in Hf. rewrite List.Forall_forall in Fa. specialize (Fa x Hx1).
    apply fmul_err with (Z.of_nat P); [lia|]. rewrite <- INR_IZR_INZ. apply Hm. lia. }
  unfold fdot. destruct a as [|a0 a]; [cbn in La; lia|]. destruct (freqs q) as [|f0 fs] eqn:Ef.
  { apply (f_equal (@List.length R)) in Ef. unfold freqs in Ef. rewrite map_length, seq_length in Ef. cbn in Ef. lia. }
  assert (Lf : length fs = (q_num_f q - 1)%nat) by (apply (f_equal (@List.length R)) in Ef; unfold freqs in Ef; rewrite map_length, seq_length in Ef; cbn in Ef; lia).
  destruct (G (a0, f0) (or_introl eq_refl)) as [B0 E0]. cbn [fst snd] in B0, E0.
  assert (X := fold_err (List.combine a fs) (fmul a0 f0) (IZR a0 * f0) 1 ltac:(lra) ltac:(lra) ltac:(lra)).
  rewrite fold_dot in X. apply X; [|intros x Hx; apply G; now right].
  rewrite combine_length. cbn in La. assert (K : (Nat.min (length a) (length fs) <= 3)%nat) by lia. apply le_INR in K. cbn [INR] in K. lra.
Qed.

Lemma fdot_own q f p : (1 <= q_num_f q <= 4)%nat -> (1 <= f <= q_num_f q)%nat ->
  fdot (harmonic_of q f p) (freqs q) = fmul (Z.of_nat p) (q_freq q f) /\ dot (harmonic_of q f p) (freqs q) = q_freq q f * INR p.
Proof.
  intros HF Hf. unfold harmonic_of, freqs. rewrite INR_IZR_INZ.
  assert (C : (q_num_f q = 1 \/ q_num_f q = 2 \/ q_num_f q = 3 \/ q_num_f q = 4)%nat) by lia.
  assert (D : (f = 1 \/ f = 2 \/ f = 3 \/ f = 4)%nat) by lia.
  destruct C as [E|[E|[E|E]]]; rewrite E in *; destruct D as [-> |[-> |[-> | ->]]]; try (exfalso; lia);
    cbn [map seq Nat.eqb fdot List.combine fold_left fst snd dot]; rewrite ?fmul_0, ?fadd_00, ?fadd_0_r, ?fadd_0_l, ?fadd_0_r; (split; [reflexivity|ring]).
Qed.

Lemma list_eq_dec_Z (a b : list Z) : {a = b} + {a <> b}.
Proof. decide equality. apply Z.eq_dec. Qed.

Section Decide.
Variables (q : qcct) (num_b : numb).
Hypothesis HF : (1 <= q_num_f q <= 4)%nat.
Hypothesis Hm : moderate_size q num_b.
Hypothesis Hsep : separated q.
Variables (f p : nat).
Hypothesis S : signal q f p.
Let x := fmul (Z.of_nat p) (q_freq q f).
Lemma own_size : Rabs (q_freq q f * INR p) <= 100000 /\ Rabs (x - q_freq q f * INR p) <= / 10000000000.
Proof.
  destruct S as [Sf Sp]. destruct Hm as [_ [_ Hs]]. unfold x. rewrite INR_IZR_INZ, Rmult_comm. apply fmul_err with (Z.of_nat (q_num_p q)); [lia|].
  rewrite <- INR_IZR_INZ. now apply Hs.
Qed.
Lemma decide a : In a (index_vectors (q_num_p q) (q_num_f q)) ->
  Reqb (np_round4 (fdot a (freqs q))) (np_round4 x) = Reqb (round4 (dot a (freqs q))) (round4 (q_freq q f * INR p)).
Proof.
  intros I. destruct S as [Sf Sp]. destruct (list_eq_dec_Z a (harmonic_of q f p)) as [-> |N].
  - destruct (fdot_own q f p HF Sf) as [-> ->]. fold x. unfold Reqb. destruct (Req_EM_T (np_round4 x) (np_round4 x)); [|contradiction].
    now destruct (Req_EM_T (round4 (q_freq q f * INR p)) (round4 (q_freq q f * INR p))).
  - assert (D := Hsep f p a S I N). destruct (fdot_err (q_num_p q) q a HF (proj2 (proj2 Hm)) I) as [B E]. destruct own_size as [Bx Ex].
    assert (Hy : Rabs (fdot a (freqs q)) <= 400002) by (apply Rabs_le_between in B, E; apply Rabs_le; lra).
    assert (Hx : Rabs x <= 400002) by (apply Rabs_le_between in Bx, Ex; apply Rabs_le; lra).
    assert (N1 := np_err _ Hy). assert (N2 := np_err _ Hx). assert (R1 := round4_err (dot a (freqs q))). assert (R2 := round4_err (q_freq q f * INR p)).
    apply Rabs_le_between in N1, N2, R1, R2, E, Ex.
    unfold Reqb. destruct (Req_EM_T _ _) as [X|_]; [exfalso|destruct (Req_EM_T _ _) as [X|_]; [exfalso|reflexivity]].
    + apply (Rle_not_lt _ _ D). apply Rabs_lt_between. lra.
    + apply (Rle_not_lt _ _ D). apply Rabs_lt_between. lra.
Qed.
Lemma row_rounded ccc rm nb :
  current_n_tones_f (q_num_f q) (round_f (round_f (NpFloat x))) ccc (q_freq q) rm (q_num_p q) nb =
  current_n_tones (q_num_f q) (round4 (round4 (q_freq q f * INR p))) ccc (q_freq q) rm (q_num_p q) nb.
Proof.
  destruct own_size as [Bx Ex]. assert (Hx : Rabs x <= 400002) by (apply Rabs_le_between in Bx, Ex; apply Rabs_le; lra).
  apply n_tones. intros a I. cbn [round_f value]. rewrite !np_idem by (try assumption; rewrite ?np_idem by assumption; pose proof (np_err x Hx) as N; apply Rabs_le_between in N, Bx, Ex; apply Rabs_le; lra).
  rewrite !round4_idem. now apply decide.
Qed.
Lemma row_plain ccc rm nb :
  current_n_tones_f (q_num_f q) (round_f (NpFloat x)) ccc (q_freq q) rm (q_num_p q) nb =
  current_n_tones (q_num_f q) (round4 (q_freq q f * INR p)) ccc (q_freq q) rm (q_num_p q) nb.
Proof.
  destruct own_size as [Bx Ex]. assert (Hx : Rabs x <= 400002) by (apply Rabs_le_between in Bx, Ex; apply Rabs_le; lra).
  apply n_tones. intros a I. cbn [round_f value]. rewrite !np_idem by assumption. rewrite !round4_idem. now apply decide.
Qed.
End Decide.

Lemma flat_map_map {A B D} (h : B -> D) (g : A -> list B) l : map h (flat_map g l) = flat_map (fun x => map h (g x)) l.
Proof. induction l as [|x l IH]; [reflexivity|]. cbn [flat_map]. now rewrite map_app, IH. Qed.
Lemma mapM_app {A B} (g : A -> res B) l1 l2 : mapM g (l1 ++ l2) = (let* a := mapM g l1 in let* b := mapM g l2 in Ok (a ++ b)).
Proof.
  induction l1 as [|x l1 IH]; cbn [mapM app bind]; [destruct (mapM g l2); reflexivity|].
  destruct (g x) as [y|]; cbn [bind]; [|reflexivity]. rewrite IH. destruct (mapM g l1); cbn [bind]; [|reflexivity]. destruct (mapM g l2); reflexivity.
Qed.
(** Lists of harmonics. *)
Lemma mapM_signals {A B D} (g : A -> res D) (h : B -> res D) (u : nat -> nat -> A) (w : nat -> nat -> B) q :
  (forall f p, signal q f p -> g (u f p) = h (w f p)) ->
  mapM g (flat_map (fun f => map (u f) (seq 1 (q_num_p q))) (seq 1 (q_num_f q))) = mapM h (flat_map (fun f => map (w f) (seq 1 (q_num_p q))) (seq 1 (q_num_f q))).
Proof.
  intros H. assert (G : forall l, (forall f, In f l -> (1 <= f <= q_num_f q)%nat) -> mapM g (flat_map (fun f => map (u f) (seq 1 (q_num_p q))) l) = mapM h (flat_map (fun f => map (w f) (seq 1 (q_num_p q))) l)).
  { induction l as [|f l IH]; intros Hl; [reflexivity|]. cbn [flat_map]. rewrite !mapM_app. rewrite IH by (intros y Hy; apply Hl; now right).
    rewrite (mapM_map_ext g h (u f) (w f)); [reflexivity|]. intros p Hp. apply in_seq in Hp. apply H. split; [apply Hl; now left|lia]. }
  apply G. intros f Hf. apply in_seq in Hf. lia.
Qed.
Lemma qt_signals J vj q resp num_b rm (u : nat -> nat -> fnum) (w : nat -> nat -> R) : moderate_size q num_b ->
  (forall f p ccc m nb, signal q f p -> current_n_tones_f (q_num_f q) (round_f (u f p)) ccc (q_freq q) m (q_num_p q) nb = current_n_tones (q_num_f q) (round4 (w f p)) ccc (q_freq q) m (q_num_p q) nb) ->
  qtcurrent_f J vj q resp (SList (flat_map (fun f => map (u f) (seq 1 (q_num_p q))) (seq 1 (q_num_f q)))) num_b rm =
  qtcurrent J vj q resp (FList (flat_map (fun f => map (w f) (seq 1 (q_num_p q))) (seq 1 (q_num_f q)))) num_b rm.
Proof.
  intros (Hp & Hb & _) H. unfold qtcurrent_f, qtcurrent. cbv zeta. destruct (guard _ _); cbn [bind]; [|reflexivity].
  destruct (unpack_num_b _ _) as [nbl|]; cbn [bind]; [|reflexivity].
  rewrite factor_same by assumption. destruct (calculate_phase_factor_coeff _ _ _ _ _ _) as [ccc|]; cbn [bind]; [|reflexivity].
  match goal with |- bind ?x _ = _ => destruct x as [m|]; cbn [bind]; [|reflexivity] end.
  rewrite !flat_map_map. rewrite (flat_map_ext _ (fun f => map (fun p => round_f (u f p)) (seq 1 (q_num_p q)))) by (intros f; apply map_map).
  rewrite (flat_map_ext (fun x => map round4 (map (w x) (seq 1 (q_num_p q)))) (fun f => map (fun p => round4 (w f p)) (seq 1 (q_num_p q)))) by (intros f; apply map_map).
  rewrite (mapM_signals _ (fun w => current_n_tones (q_num_f q) w ccc (q_freq q) m (q_num_p q) nbl) (fun f p => round_f (u f p)) (fun f p => round4 (w f p)) q); [reflexivity|].
  intros f p S. now apply H.
Qed.

Lemma qt_hb_same J q resp num_b rm v : (1 <= q_num_f q <= 4)%nat -> moderate_size q num_b -> separated q ->
  qt_current_for_hb_f J q resp num_b rm v = qt_current_for_hb J q resp num_b rm v.
Proof.
  intros HF Hm Hs. unfold qt_current_for_hb_f, qt_current_for_hb. cbv zeta.
  rewrite (qt_signals J _ q resp num_b rm (fun f p => round_f (NpFloat (fmul (Z.of_nat p) (q_freq q f)))) (fun f p => round4 (q_freq q f * INR p)) Hm); [reflexivity|].
  intros f p ccc m nb S. now apply row_rounded with num_b.
Qed.
Lemma all_freq_same J q resp num_b v : (1 <= q_num_f q <= 4)%nat -> moderate_size q num_b -> separated q ->
  qtcurrent_all_freq_f J v q resp num_b = qtcurrent_all_freq J v q resp num_b.
Proof.
  intros HF Hm Hs. unfold qtcurrent_all_freq_f, qtcurrent_all_freq. cbv zeta.
  rewrite (qt_signals J _ q resp num_b None (fun f p => NpFloat (fmul (Z.of_nat p) (q_freq q f))) (fun f p => q_freq q f * INR p) Hm); [reflexivity|].
  intros f p ccc m nb S. now apply row_plain with num_b.
Qed.
Lemma hb_same J inv c resp num_b max_it stop vj0 damp mode zj : (1 <= q_num_f (h_q c) <= 4)%nat -> moderate_size (h_q c) num_b -> separated (h_q c) ->
  harmonic_balance_f J inv c resp num_b max_it stop vj0 damp mode zj = harmonic_balance J inv c resp num_b max_it stop vj0 damp mode zj.
Proof.
  intros HF Hm Hs. unfold harmonic_balance_f, harmonic_balance. cbv zeta.
  assert (E : qt_current_for_hb_f J (h_q c) resp num_b = qt_current_for_hb J (h_q c) resp num_b).
  { extensionality rm. extensionality v. now apply qt_hb_same. }
  now rewrite E.
Qed.
Lemma check_same J v c resp num_b stop : (1 <= q_num_f (h_q c) <= 4)%nat -> moderate_size (h_q c) num_b -> separated (h_q c) ->
  check_hb_error_f J v c resp num_b stop = check_hb_error J v c resp num_b stop.
Proof. intros HF Hm Hs. unfold check_hb_error_f, check_hb_error. cbv zeta. now rewrite all_freq_same. Qed.
