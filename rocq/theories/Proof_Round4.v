(** The rounded convolution of the phase factors, and the whole function. *)
From Coq Require Import List ZArith Lia Bool Arith Reals Lra Psatz Permutation.
From Coquelicot Require Import Rcomplements Complex.
From Verif Require Import Base Sums Round Model_QtCurrent Spec_QtCurrent Spec_QtApi Proof_QtCurrent Proof_QtCurrent2 Model_QtFloat Spec_QtFloat Proof_QtFloat Model_QtRound Spec_Rounding Proof_Round Proof_Round2 Proof_Round3.
Import ListNotations.
Local Notation length := List.length.
Open Scope Z_scope.

Lemma rconv_inner jac N p k last ls nf K (L LM A AM : nat -> Z -> vec) :
  j_nk jac = (2 * N + 1)%nat -> (p < j_np jac)%nat -> - Z.of_nat N <= k <= Z.of_nat N ->
  (forall f k i, (1 <= f <= nf)%nat -> - Z.of_nat N <= k <= Z.of_nat N -> rel K (last f (wrapk N k) i) (L f k i) (LM f k i)) ->
  (forall f l i, (1 <= f <= nf)%nat -> - Z.of_nat N <= l <= Z.of_nat N -> rel 0 (j_at jac f p (wrapk N l) i) (A f l i) (AM f l i)) ->
  (forall l, In l ls -> - Z.of_nat N <= l <= Z.of_nat N /\ - Z.of_nat N <= k - Z.of_nat p * l <= Z.of_nat N) ->
  forall next : nat -> nat -> vec, exists next',
  foreach ls (fun l ckh_next =>
      let* jk := nbidx (j_nk jac) k in
      let* jkl := nbidx (j_nk jac) (k - Z.of_nat p * l) in
      let* jp := nbidx (j_np jac) (Z.of_nat p) in
      let* jl := nbidx (j_nk jac) l in
      Ok (fun f j => if ((1 <=? f) && (j =? jk))%nat
                     then fun i => cadd_r (ckh_next f jk i) (cmul_r (last f jkl i) (j_at jac f jp jl i))
                     else ckh_next f j)) next = Ok next' /\
  (forall f j i, j <> wrapk N k -> next' f j i = next f j i) /\
  (forall f, (1 <= f <= nf)%nat -> step (length ls) (K + 1) (next f (wrapk N k)) (next' f (wrapk N k))
     (fun i => csum ls (fun l => Cmult (L f (k - Z.of_nat p * l) i) (A f l i)))
     (fun i => csum ls (fun l => Cmult (LM f (k - Z.of_nat p * l) i) (AM f l i)))).
Proof.
  intros Hnk Hp Hk HL HA.
  match goal with |- context [foreach ls ?b _] => set (body := b) end.
  induction ls as [|l ls IH]; intros Hls next.
  - exists next. split; [reflexivity|]. split; [reflexivity|]. intros f Hf. apply step_skip; reflexivity.
  - cbn [foreach]. destruct (Hls l (or_introl eq_refl)) as [Hl1 Hl2].
    set (next1 := fun f j => if ((1 <=? f) && (j =? wrapk N k))%nat
                  then fun i => cadd_r (next f (wrapk N k) i)
                                 (cmul_r (last f (wrapk N (k - Z.of_nat p * l)) i) (j_at jac f p (wrapk N l) i))
                  else next f j).
    assert (Eb : body l next = Ok next1).
    { unfold body. rewrite Hnk, !nbidx_sym by assumption. rewrite nbidx_nat by assumption. reflexivity. }
    rewrite Eb. cbn [bind].
    destruct (IH (fun l' H => Hls l' (or_intror H)) next1) as [next' [E [H1 H2]]].
    exists next'. split; [exact E|]. split.
    + intros f j i Hj. rewrite H1 by assumption. unfold next1.
      destruct (Nat.eqb_spec j (wrapk N k)); [contradiction|]. now rewrite andb_false_r.
    + intros f Hf. cbn [length csum].
      assert (S1 : step 1 (K + 1) (next f (wrapk N k)) (next1 f (wrapk N k))
        (fun i => Cmult (L f (k - Z.of_nat p * l) i) (A f l i)) (fun i => Cmult (LM f (k - Z.of_nat p * l) i) (AM f l i))).
      { unfold next1. rewrite Nat.eqb_refl. destruct (Nat.leb_spec 1 f); [|lia]. cbn [andb].
        apply (step_add (K + 1) (next f (wrapk N k)) (fun i => cmul_r (last f (wrapk N (k - Z.of_nat p * l)) i) (j_at jac f p (wrapk N l) i))).
        intros i. eapply rel_conv; [apply rel_mul; [apply HL; assumption|apply HA; assumption]|reflexivity|reflexivity|lia]. }
      exact (step_comp _ _ _ _ _ _ _ _ _ _ S1 (H2 f Hf)).
Qed.

Definition conv_sum N p (L A : nat -> Z -> vec) f k i : C :=
  csum (sym N) (fun l => if within N (k - Z.of_nat p * l) then Cmult (L f (k - Z.of_nat p * l) i) (A f l i) else RtoC 0).
Lemma limits_sum N p k (F : Z -> C) : (1 <= p)%nat -> - Z.of_nat N <= k <= Z.of_nat N ->
  csum (zrange (Z.max (- Z.of_nat N) (Z.quot (k - Z.of_nat N) (Z.of_nat p))) (Z.min (Z.of_nat N) (Z.quot (k + Z.of_nat N) (Z.of_nat p)) + 1)) F =
  csum (sym N) (fun l => if within N (k - Z.of_nat p * l) then F l else RtoC 0).
Proof.
  intros Hp Hk. rewrite <- csum_filter. apply csum_perm. apply NoDup_Permutation.
  - apply zrange_NoDup.
  - apply NoDup_filter, sym_NoDup.
  - intros l. rewrite in_zrange, filter_In, in_sym, within_spec.
    rewrite <- (conv_limits (Z.of_nat N) (Z.of_nat p) k l) by lia. lia.
Qed.
Lemma limits_length N p k : (1 <= p)%nat -> - Z.of_nat N <= k <= Z.of_nat N ->
  (length (zrange (Z.max (- Z.of_nat N) (Z.quot (k - Z.of_nat N) (Z.of_nat p))) (Z.min (Z.of_nat N) (Z.quot (k + Z.of_nat N) (Z.of_nat p)) + 1)) <= 2 * N + 1)%nat.
Proof. intros Hp Hk. rewrite zrange_length. lia. Qed.

Lemma rconv_pass jac N p last nf K (L LM A AM : nat -> Z -> vec) :
  Z.of_nat N < 2 ^ 51 -> Z.of_nat p < 2 ^ 53 ->
  j_nk jac = (2 * N + 1)%nat -> (p < j_np jac)%nat -> (1 <= p)%nat ->
  (forall f k i, (1 <= f <= nf)%nat -> - Z.of_nat N <= k <= Z.of_nat N -> rel K (last f (wrapk N k) i) (L f k i) (LM f k i)) ->
  (forall f l i, (1 <= f <= nf)%nat -> - Z.of_nat N <= l <= Z.of_nat N -> rel 0 (j_at jac f p (wrapk N l) i) (A f l i) (AM f l i)) ->
  exists next, conv_pass_r jac N (Z.of_nat p) last = Ok next /\
    forall f k i, (1 <= f <= nf)%nat -> - Z.of_nat N <= k <= Z.of_nat N ->
      rel (K + (2 * N + 2)) (next f (wrapk N k) i) (conv_sum N p L A f k i) (conv_sum N p LM AM f k i).
Proof.
  intros BN Bp Hnk Hp Hp1 HL HA. unfold conv_pass_r.
  pose (Q := fun (pre : list Z) (next : nat -> nat -> vec) =>
    forall f k i, (1 <= f <= nf)%nat -> - Z.of_nat N <= k <= Z.of_nat N ->
      if existsb (Z.eqb k) pre then rel (K + (2 * N + 2)) (next f (wrapk N k) i) (conv_sum N p L A f k i) (conv_sum N p LM AM f k i)
      else next f (wrapk N k) i = RtoC 0).
  assert (Gen : forall ks pre next, Q pre next -> NoDup ks -> (forall k, In k ks -> - Z.of_nat N <= k <= Z.of_nat N) ->
    (forall k, In k ks -> ~ In k pre) ->
    exists next', foreach ks (fun k ckh_next =>
       foreach (zrange (Z.max (- Z.of_nat N) (int_div (k - Z.of_nat N) (Z.of_nat p)))
                       (Z.min (Z.of_nat N) (int_div (k + Z.of_nat N) (Z.of_nat p)) + 1)) (fun l ckh_next =>
      let* jk := nbidx (j_nk jac) k in
      let* jkl := nbidx (j_nk jac) (k - Z.of_nat p * l) in
      let* jp := nbidx (j_np jac) (Z.of_nat p) in
      let* jl := nbidx (j_nk jac) l in
      Ok (fun f j => if ((1 <=? f) && (j =? jk))%nat
                     then fun i => cadd_r (ckh_next f jk i) (cmul_r (last f jkl i) (j_at jac f jp jl i))
                     else ckh_next f j)) ckh_next) next = Ok next' /\ Q (pre ++ ks) next').
  { induction ks as [|k ks IH]; intros pre next HQ ND Hks Hni.
    - exists next. rewrite app_nil_r. split; [reflexivity|exact HQ].
    - cbn [foreach]. inversion ND as [|? ? Hnin ND']; subst.
      assert (Hk : - Z.of_nat N <= k <= Z.of_nat N) by (apply Hks; now left).
      rewrite !int_div_quot by lia.
      destruct (rconv_inner jac N p k last
        (zrange (Z.max (- Z.of_nat N) (Z.quot (k - Z.of_nat N) (Z.of_nat p)))
                       (Z.min (Z.of_nat N) (Z.quot (k + Z.of_nat N) (Z.of_nat p)) + 1)) nf K L LM A AM Hnk Hp Hk HL HA) with (next := next)
        as [n1 [E1 [H1 H2]]].
      { intros l Hl. apply in_zrange in Hl. apply (conv_limits (Z.of_nat N) (Z.of_nat p) k l); lia. }
      rewrite E1. cbn [bind].
      destruct (IH (pre ++ [k]) n1) as [n2 [E2 HQ2]].
      + intros f k' i Hf Hk'. rewrite existsb_app. cbn [existsb]. rewrite orb_false_r.
        specialize (HQ f k' i Hf Hk'). destruct (Z.eqb_spec k' k) as [->|Nk].
        * rewrite orb_true_r. specialize (H2 f Hf i (K + 1)%nat (RtoC 0) (RtoC 0) (le_n _)).
          destruct (existsb (Z.eqb k) pre) eqn:EX.
          { apply existsb_exists in EX as [x [Hx Ex]]. apply Z.eqb_eq in Ex. subst x.
            exfalso. apply (Hni k); [now left|assumption]. }
          rewrite HQ in H2. specialize (H2 (rel_zero _)). rewrite !limits_sum in H2 by assumption.
          eapply rel_conv; [exact H2|unfold conv_sum; ring|unfold conv_sum; ring|].
          pose proof (limits_length N p k Hp1 Hk). lia.
        * rewrite orb_false_r. rewrite H1; [exact HQ|]. intros E. apply Nk. apply (wrapk_inj N); assumption.
      + assumption.
      + intros; apply Hks; now right.
      + intros k' Hk' Hin. apply in_app_iff in Hin as [Hin|[<-|[]]]; [|contradiction].
        apply (Hni k'); [now right|assumption].
      + exists n2. split; [exact E2|]. rewrite <- app_assoc in HQ2. exact HQ2. }
  destruct (Gen (zrange (- Z.of_nat N) (Z.of_nat N + 1)) [] (fun _ _ => vzero)) as [next [E H]].
  - intros f k i Hf Hk. reflexivity.
  - apply zrange_NoDup.
  - intros k Hk. apply in_zrange in Hk. lia.
  - intros k _ [].
  - exists next. split; [exact E|]. intros f k i Hf Hk. specialize (H f k i Hf Hk).
    replace (existsb _ _) with true in H; [exact H|]. symmetry. apply existsb_exists.
    exists k. split; [simpl; apply in_zrange; lia|apply Z.eqb_refl].
Qed.

(** Cutting off the coefficients of a harmonic, for numbers and for sizes. *)
Lemma conv_phase N b (PF : nat -> Z -> C) (A : Z -> C) m k : (b <= N)%nat ->
  csum (sym N) (fun l => if within N (k - Z.of_nat (S m) * l) then Cmult (PF m (k - Z.of_nat (S m) * l)) (cut b A l) else RtoC 0) =
  csum (sym b) (fun l => Cmult (cut N (PF m) (k - Z.of_nat (S m) * l)) (A l)).
Proof.
  intros Hb. rewrite <- (csum_cut_sym N b) by assumption. apply csum_ext. intros l Hl. rewrite !cut_within.
  destruct (within N (k - Z.of_nat (S m) * l)); destruct (within b l); ring.
Qed.
Lemma size_cut b A k : size (cut b A k) = cut b (fun n => size (A n)) k.
Proof. rewrite !cut_within. destruct (within b k); [reflexivity|]. unfold size. now rewrite Cmod_0. Qed.

Section Top.
Variable J : nat -> R -> R.
Definition SJA vj freq f p i n : C := size (JA J vj freq f p i n).

Lemma rphase vj freq num_f num_p num_b :
  Z.of_nat num_p < 2 ^ 50 -> Z.of_nat (list_max (nbtuple num_b num_f)) < 2 ^ 50 ->
  (1 <= num_f)%nat -> (1 <= num_p)%nat -> (num_f <= length (nbtuple num_b num_f))%nat ->
  let nbt := nbtuple num_b num_f in
  let N := list_max nbt in
  exists ccc, calculate_phase_factor_coeff_r J vj freq num_f num_p num_b = Ok ccc /\
    c_nf ccc = (num_f + 1)%nat /\ c_nk ccc = (2 * N + 1)%nat /\
    forall f k i, (1 <= f <= num_f)%nat -> - Z.of_nat N <= k <= Z.of_nat N ->
      rel ((num_p - 1) * (2 * N + 2)) (c_at ccc f (wrapk N k) i)
        (phase_factor N (nth (f - 1) nbt O) (fun p => JA J vj freq f p i) num_p k)
        (phase_factor N (nth (f - 1) nbt O) (fun p => SJA vj freq f p i) num_p k).
Proof.
  intros Bp BN Hf1 Hp1 Hlen nbt N. unfold calculate_phase_factor_coeff_r. fold (nbtuple num_b num_f). fold nbt.
  fold nbt in Hlen. fold nbt in BN. fold N in BN. destruct (Nat.eqb_spec (length nbt) 0) as [E0|_]; [lia|]. cbn [negb guard bind].
  destruct (build_jac_spec J vj freq num_f num_p nbt Hlen) as [jac [EJ [Hnf [Hnp [Hnk HJ]]]]].
  fold N in Hnk, HJ. rewrite EJ. cbn [bind]. unfold convolve_coefficients_r.
  rewrite Hnp. replace (num_p + 1 - 1)%nat with num_p by lia.
  assert (EN : ((j_nk jac - 1) / 2)%nat = N).
  { rewrite Hnk. replace (2 * N + 1 - 1)%nat with (N * 2)%nat by lia. now rewrite Nat.div_mul. }
  rewrite EN. rewrite (nbidx_nat (num_p + 1) 1 ltac:(lia) : nbidx (num_p + 1) 1 = Ok 1%nat). cbn [bind].
  assert (Hnb : forall f, (1 <= f <= num_f)%nat -> (nth (f - 1) nbt O <= N)%nat).
  { intros f Hf. apply in_list_max. apply nth_In. lia. }
  assert (HJ0 : forall f p k i, (1 <= f <= num_f)%nat -> (1 <= p <= num_p)%nat -> - Z.of_nat N <= k <= Z.of_nat N ->
    rel 0 (j_at jac f p (wrapk N k) i) (cut (nth (f - 1) nbt O) (JA J vj freq f p i) k) (cut (nth (f - 1) nbt O) (SJA vj freq f p i) k)).
  { intros f p k i Hf Hp Hk. rewrite HJ by assumption. unfold SJA. rewrite <- size_cut. apply rel_exact. }
  destruct (Nat.eqb_spec num_p 1) as [->|Np].
  - eexists. split; [reflexivity|]. cbn [c_nf c_nk c_at]. split; [assumption|]. split; [assumption|].
    intros f k i Hf Hk. rewrite !phase_factor_1. eapply rel_conv; [apply HJ0; lia|reflexivity|reflexivity|lia].
  - assert (Gen : forall m, (1 <= m <= num_p)%nat -> exists ckh,
      foreach (zrange 2 (Z.of_nat m + 1)) (fun p last => conv_pass_r jac N p last) (fun f => j_at jac f 1%nat) = Ok ckh /\
      forall f k i, (1 <= f <= num_f)%nat -> - Z.of_nat N <= k <= Z.of_nat N ->
        rel ((m - 1) * (2 * N + 2)) (ckh f (wrapk N k) i) (phase_factor N (nth (f - 1) nbt O) (fun p => JA J vj freq f p i) m k)
          (phase_factor N (nth (f - 1) nbt O) (fun p => SJA vj freq f p i) m k)).
    { induction m as [|m IHm]; [lia|]. intros Hm. destruct (Nat.eq_dec m 0) as [->|Nm].
      - simpl Z.of_nat. rewrite zrange_nil by lia. cbn [foreach]. eexists. split; [reflexivity|].
        intros f k i Hf Hk. rewrite !phase_factor_1. eapply rel_conv; [apply HJ0; lia|reflexivity|reflexivity|lia].
      - destruct IHm as [ckh [E H]]; [lia|].
        replace (Z.of_nat (S m) + 1) with (Z.of_nat m + 1 + 1) by lia.
        rewrite zrange_snoc by lia. rewrite foreach_app, E. cbn [bind foreach].
        destruct (rconv_pass jac N (S m) ckh num_f ((m - 1) * (2 * N + 2))
          (fun f k i => phase_factor N (nth (f - 1) nbt O) (fun p => JA J vj freq f p i) m k)
          (fun f k i => phase_factor N (nth (f - 1) nbt O) (fun p => SJA vj freq f p i) m k)
          (fun f k i => cut (nth (f - 1) nbt O) (JA J vj freq f (S m) i) k) (fun f k i => cut (nth (f - 1) nbt O) (SJA vj freq f (S m) i) k))
          as [next [En Hn]]; try lia; try assumption.
        { intros f l i Hf Hl. apply HJ0; lia. }
        replace (Z.of_nat m + 1) with (Z.of_nat (S m)) by lia. rewrite En. cbn [bind].
        exists next. split; [reflexivity|]. intros f k i Hf Hk. specialize (Hn f k i Hf Hk).
        rewrite !phase_factor_S by lia.
        assert (CP := fun X => conv_phase N (nth (f - 1) nbt O) (phase_factor N (nth (f - 1) nbt O) (fun p => X p)) (X (S m)) m k (Hnb f Hf)).
        eapply rel_conv; [exact Hn|apply (CP (fun p => JA J vj freq f p i))|apply (CP (fun p => SJA vj freq f p i))|].
        destruct m; [lia|]. replace (S (S m) - 1)%nat with (S m) by lia. replace (S m - 1)%nat with m by lia. lia. }
    destruct (Gen num_p ltac:(lia)) as [ckh [E H]].
    rewrite E. cbn [bind]. eexists. split; [reflexivity|]. cbn [c_nf c_nk c_at].
    split; [assumption|]. split; [assumption|]. exact H.
Qed.

Lemma rcurrent vj cct resp num_b ccc rm w :
  (1 <= q_num_f cct <= 4)%nat -> (1 <= q_num_p cct)%nat ->
  (q_num_f cct <= length (nbtuple num_b (q_num_f cct)))%nat ->
  Z.of_nat (q_num_p cct) < 2 ^ 50 -> Z.of_nat (list_max (nbtuple num_b (q_num_f cct))) < 2 ^ 50 ->
  (forall f, (1 <= f <= q_num_f cct)%nat -> (INR (q_num_p cct) * Rabs (q_freq cct f) <= 100000)%R) ->
  (forall a, In a (index_vectors (q_num_p cct) (q_num_f cct)) -> clear (dot a (freqs cct))) ->
  (Rabs (value w) <= 1000000)%R -> clear (value w) ->
  calculate_phase_factor_coeff_r J vj (q_freq cct) (q_num_f cct) (q_num_p cct) num_b = Ok ccc ->
  rm_ok rm (truncations num_b (q_num_f cct)) (vbdot (q_vb cct) resp (freqs cct)) ->
  exists v, current_n_tones_r (q_num_f cct) (round_f w) ccc (q_freq cct) rm (q_num_p cct) (truncations num_b (q_num_f cct)) = Ok v /\
    forall i, rel (roundings (q_num_f cct) (q_num_p cct) (list_max (nbtuple num_b (q_num_f cct))) (truncations num_b (q_num_f cct))) (v i)
      (current (q_num_p cct) (tones J vj cct num_b i) (freqs cct) (q_vb cct i) resp (value w))
      (RtoC (current_size (q_num_p cct) (tones_size J vj cct num_b i) (freqs cct) (q_vb cct i) resp (value w))).
Proof.
  intros Hf Hp Hl Bp BN Bf Cf Bw Cw EC HR.
  destruct (rphase vj (q_freq cct) (q_num_f cct) (q_num_p cct) num_b) as
    [ccc' [EC' [Hnf [Hnk HC]]]]; try lia. rewrite EC in EC'. inversion EC'; subst ccc'. clear EC'.
  unfold truncations in *. set (nbt := nbtuple num_b (q_num_f cct)) in *. set (N := list_max nbt) in *.
  assert (CC : forall f, (1 <= f <= q_num_f cct)%nat ->
    cc_rel ccc (Z.of_nat f) (nth (f - 1) nbt O) ((q_num_p cct - 1) * (2 * N + 2))
      (fun k i => phase_factor N (nth (f - 1) nbt O) (fun p => JA J vj (q_freq cct) f p i) (q_num_p cct) k)
      (fun k i => phase_factor N (nth (f - 1) nbt O) (fun p => SJA vj (q_freq cct) f p i) (q_num_p cct) k)).
  { intros f Hf' k Hk.
    assert (Hb : (nth (f - 1) nbt O <= N)%nat) by (apply in_list_max, nth_In; lia).
    unfold cc_get. rewrite Hnf, nbidx_nat by lia. cbn [bind]. rewrite Hnk, nbidx_sym by lia. cbn [bind].
    eexists. split; [reflexivity|]. intros i. apply HC; lia. }
  clear HC Hnf Hnk EC BN. unfold tones, tones_size, freqs in *. fold nbt. fold N. clearbody N. clearbody nbt.
  destruct cct as [F P np fr vb]. cbn [q_num_f q_npts q_vb q_freq q_num_p] in *.
  destruct F as [|[|[|[|[|F]]]]]; try lia.
  - destruct nbt as [|b1 nbt]; [simpl in Hl; lia|].
    destruct (rtones_1 ccc rm fr resp vb P ((P - 1) * (2 * N + 2)) w Bw Cw b1 _ _ (conj Bf Cf) (CC 1%nat ltac:(lia)) HR) as [v [E H]].
    exists v. split; [exact E|]. intros i. eapply rel_conv; [apply H|reflexivity|reflexivity|].
    unfold roundings. cbn [firstn fold_right Nat.pow]. lia.
  - destruct nbt as [|b1 [|b2 nbt]]; try (simpl in Hl; lia).
    destruct (rtones_2 ccc rm fr resp vb P ((P - 1) * (2 * N + 2)) w Bw Cw b1 b2 _ _ _ _ (conj Bf Cf) (CC 1%nat ltac:(lia)) (CC 2%nat ltac:(lia)) HR) as [v [E H]].
    exists v. split; [exact E|]. intros i. eapply rel_conv; [apply H|reflexivity|reflexivity|].
    unfold roundings. cbn [firstn fold_right]. lia.
  - destruct nbt as [|b1 [|b2 [|b3 nbt]]]; try (simpl in Hl; lia).
    destruct (rtones_3 ccc rm fr resp vb P ((P - 1) * (2 * N + 2)) w Bw Cw b1 b2 b3 _ _ _ _ _ _ (conj Bf Cf) (CC 1%nat ltac:(lia)) (CC 2%nat ltac:(lia)) (CC 3%nat ltac:(lia)) HR) as [v [E H]].
    exists v. split; [exact E|]. intros i. eapply rel_conv; [apply H|reflexivity|reflexivity|].
    unfold roundings. cbn [firstn fold_right]. lia.
  - destruct nbt as [|b1 [|b2 [|b3 [|b4 nbt]]]]; try (simpl in Hl; lia).
    destruct (rtones_4 ccc rm fr resp vb P ((P - 1) * (2 * N + 2)) w Bw Cw b1 b2 b3 b4 _ _ _ _ _ _ _ _ (conj Bf Cf) (CC 1%nat ltac:(lia)) (CC 2%nat ltac:(lia)) (CC 3%nat ltac:(lia)) (CC 4%nat ltac:(lia)) HR) as [v [E H]].
    exists v. split; [exact E|]. intros i. eapply rel_conv; [apply H|reflexivity|reflexivity|].
    unfold roundings. cbn [firstn fold_right]. lia.
Qed.
End Top.
