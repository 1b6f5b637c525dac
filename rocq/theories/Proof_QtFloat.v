(** Proofs about the floating-point decisions of the tunnelling-current module. *)
From Coq Require Import List ZArith Bool Reals Lia Lra Psatz.
From Coquelicot Require Import Rcomplements Complex.
From Flocq Require Import Core Relative.
From Verif Require Import Base Sums Round Model_QtCurrent Spec_QtCurrent Proof_QtCurrent Proof_QtCurrent2 Proof_QtSym Spec_QtApi Proof_QtApi2 Model_QtFloat Spec_QtFloat.
Import ListNotations.
Local Notation length := List.length.
Local Notation Forall := List.Forall.
Open Scope R_scope.

Definition u53 : R := / 9007199254740992.
Lemma bpow_small : bpow radix2 (-1075) <= / 1267650600228229401496703205376.
Proof. change (/ 1267650600228229401496703205376) with (bpow radix2 (-100)). apply bpow_le. lia. Qed.
Lemma rnd_rel x : exists eps eta, Rabs eps <= u53 /\ Rabs eta <= / 1267650600228229401496703205376 /\ eps * eta = 0 /\ rnd x = x * (1 + eps) + eta.
Proof.
  destruct (error_N_FLT radix2 (-1074) 53 ltac:(lia) (fun t => negb (Z.even t)) x) as (eps & eta & H1 & H2 & H3 & H4).
  exists eps, eta. repeat split; try assumption.
  - eapply Rle_trans; [exact H1|]. replace (-53 + 1)%Z with (-52)%Z by lia. unfold u53. simpl. lra.
  - eapply Rle_trans; [exact H2|]. eapply Rle_trans; [|apply bpow_small]. change (-1075)%Z with (-1 + -1074)%Z. rewrite bpow_plus. right. f_equal.
Qed.
Lemma rnd_err x M : Rabs x <= M -> Rabs (rnd x - x) <= u53 * M + / 1267650600228229401496703205376.
Proof.
  intros HM. destruct (rnd_rel x) as (eps & eta & H1 & H2 & _ & ->).
  replace (x * (1 + eps) + eta - x) with (x * eps + eta) by ring. eapply Rle_trans; [apply Rabs_triang|]. rewrite Rabs_mult.
  apply Rplus_le_compat; [|assumption]. rewrite (Rmult_comm u53). apply Rmult_le_compat; try apply Rabs_pos; assumption.
Qed.
Lemma rnd_opp x : rnd (- x) = - rnd x. Proof. apply round_NE_opp. Qed.
Lemma rnd_le x y : x <= y -> rnd x <= rnd y.
Proof. apply round_le; auto with typeclass_instances. apply FLT_exp_valid. unfold Prec_gt_0. lia. Qed.
Lemma rnd_int n : (Z.abs n <= 2 ^ 53)%Z -> rnd (IZR n) = IZR n.
Proof.
  intros H. apply round_generic; auto with typeclass_instances.
  assert (V : Valid_exp (FLT_exp (-1074) 53)) by (apply FLT_exp_valid; unfold Prec_gt_0; lia).
  destruct (Z.eq_dec (Z.abs n) (2 ^ 53)) as [E|E].
  - assert (G : generic_format radix2 (FLT_exp (-1074) 53) (bpow radix2 53)) by (apply generic_format_bpow; unfold FLT_exp; lia).
    change (bpow radix2 53) with (IZR (2 ^ 53)) in G.
    destruct (Z.abs_eq_or_opp n) as [A|A]; rewrite A in E; [now rewrite E|].
    replace n with (- 2 ^ 53)%Z by lia. rewrite opp_IZR. now apply generic_format_opp.
  - apply generic_format_FLT. exists (Float radix2 n 0); [unfold F2R; cbn [Fnum Fexp]; change (bpow radix2 0) with 1; ring| |]; cbn [Fnum Fexp]; [|lia].
    change (Zpower radix2 53) with (2 ^ 53)%Z. lia.
Qed.

(** ** C120 *)
Lemma int_div_nonneg a p : (0 <= a < 2 ^ 53)%Z -> (0 < p < 2 ^ 53)%Z -> int_div a p = Z.quot a p.
Proof.
  intros Ha Hp. unfold int_div. rewrite Z.quot_div_nonneg by lia. set (q := (a / p)%Z).
  assert (Hq : (p * q <= a < p * (q + 1))%Z) by (subst q; pose proof (Z.mul_div_le a p); pose proof (Z.mul_succ_div_gt a p); lia).
  assert (Q0 : (0 <= q)%Z) by (apply Z.div_pos; lia).
  assert (Q1 : (q <= a)%Z) by (apply Z.div_le_upper_bound; nia).
  assert (P : 0 < IZR p) by (apply IZR_lt; lia).
  assert (X0 : IZR q <= IZR a / IZR p). { apply Rmult_le_reg_r with (IZR p); [assumption|]. unfold Rdiv. rewrite Rmult_assoc, Rinv_l, Rmult_1_r, <- mult_IZR by lra. apply IZR_le. lia. }
  assert (X1 : IZR a / IZR p + / IZR p <= IZR (q + 1)).
  { apply Rmult_le_reg_r with (IZR p); [assumption|]. unfold Rdiv. rewrite Rmult_plus_distr_r, Rmult_assoc, Rinv_l, Rmult_1_r by lra. rewrite <- mult_IZR, <- plus_IZR. apply IZR_le. lia. }
  assert (Pi : 0 < / IZR p) by (now apply Rinv_0_lt_compat).
  assert (L : IZR q <= rnd (IZR a / IZR p)) by (rewrite <- (rnd_int q) by lia; now apply rnd_le).
  assert (U : rnd (IZR a / IZR p) < IZR (q + 1)).
  { assert (U' : rnd (IZR a / IZR p) <= IZR (q + 1)) by (rewrite <- (rnd_int (q + 1)) by lia; apply rnd_le; lra).
    destruct U' as [?|E]; [assumption|exfalso].
    destruct (rnd_rel (IZR a / IZR p)) as (eps & eta & H1 & H2 & H3 & H4). rewrite H4 in E.
    set (x := IZR a / IZR p) in *.
    assert (B : / IZR p <= x * eps + eta) by lra.
    assert (A1 : IZR a <= 9007199254740991) by (apply IZR_le; lia).
    assert (A0 : 0 <= IZR a) by (apply IZR_le; lia).
    assert (P1 : IZR p <= 9007199254740991) by (apply IZR_le; lia).
    apply Rmult_integral in H3. destruct H3 as [-> | ->].
    - assert (/ 9007199254740991 <= / IZR p) by (apply Rinv_le_contravar; lra). apply Rabs_le_between in H2. lra.
    - assert (B2 : 1 <= IZR a * eps).
      { apply Rmult_le_reg_r with (/ IZR p); [assumption|]. unfold x, Rdiv in B. lra. }
      apply Rabs_le_between in H1. unfold u53 in H1. nra. }
  rewrite Ztrunc_floor by (apply Rle_trans with (IZR q); [apply IZR_le; lia|assumption]). apply Zfloor_imp. now split.
Qed.
Lemma int_div_quot a p : (Z.abs a < 2 ^ 53)%Z -> (0 < p < 2 ^ 53)%Z -> int_div a p = Z.quot a p.
Proof.
  intros Ha Hp. destruct (Z_le_gt_dec 0 a); [apply int_div_nonneg; lia|].
  assert (E := int_div_nonneg (- a) p ltac:(lia) Hp). unfold int_div in *.
  rewrite Z.quot_opp_l, opp_IZR in E by lia. unfold Rdiv in *. rewrite Ropp_mult_distr_l_reverse, rnd_opp, Ztrunc_opp in E. lia.
Qed.

(** ** C121 *)
Lemma rint_near x n : Rabs (x - IZR n) < / 2 -> rint x = n.
Proof. intros H. apply rint_unique_strict. now rewrite Rabs_minus_sym. Qed.
Lemma clear_int x : clear x -> Rabs (x * 10000 - IZR (rint (x * 10000))) <= 499 / 1000.
Proof.
  intros [n H]. apply Rabs_le_between in H. rewrite (rint_near (x * 10000) n); [apply Rabs_le|apply Rabs_lt_between]; lra.
Qed.
Lemma grid n : Rabs (IZR n) <= 10000000001 -> Rabs (rnd (IZR n / 10000) * 10000 - IZR n) <= / 10000.
Proof.
  intros H. assert (Hn : Rabs (IZR n / 10000) <= 1000001) by (unfold Rdiv; rewrite Rabs_mult, (Rabs_pos_eq (/ 10000)) by lra; lra).
  assert (E := rnd_err _ _ Hn). apply Rabs_le_between in E. unfold u53 in E. apply Rabs_le. lra.
Qed.
Lemma grid_inj n m : Rabs (IZR n) <= 10000000001 -> Rabs (IZR m) <= 10000000001 -> rnd (IZR n / 10000) = rnd (IZR m / 10000) -> n = m.
Proof.
  intros Hn Hm E. apply grid in Hn, Hm. rewrite E in Hn. apply Rabs_le_between in Hn, Hm.
  assert (A : Rabs (IZR (n - m)) < 1) by (rewrite minus_IZR; apply Rabs_lt_between; lra). rewrite <- abs_IZR in A. apply lt_IZR in A. lia.
Qed.
Lemma grid_size x : Rabs x <= 1000000 -> Rabs (IZR (rint (x * 10000))) <= 10000000001.
Proof. intros H. pose proof (rint_spec (x * 10000)) as E. apply Rabs_le_between in H, E. apply Rabs_le. lra. Qed.
Lemma np_near y n : Rabs y <= 1000001 -> Rabs (y * 10000 - IZR n) <= 4999 / 10000 -> np_round4 y = rnd (IZR n / 10000).
Proof.
  intros Hy Hn. unfold np_round4. assert (Hy' : Rabs (y * 10000) <= 10000010000) by (rewrite Rabs_mult, (Rabs_pos_eq 10000) by lra; lra).
  assert (E := rnd_err _ _ Hy'). rewrite (rint_near _ n); [reflexivity|]. apply Rabs_le_between in E, Hn. unfold u53 in E. apply Rabs_lt_between. lra.
Qed.
Lemma py_near y n : Rabs (y * 10000 - IZR n) <= 4999 / 10000 -> py_round4 y = rnd (IZR n / 10000).
Proof. intros Hn. unfold py_round4. rewrite (rint_near _ n); [reflexivity|]. apply Rabs_le_between in Hn. apply Rabs_lt_between. lra. Qed.
Lemma round_f_near x n : Rabs (value x) <= 1000001 -> Rabs (value x * 10000 - IZR n) <= 4999 / 10000 -> value (round_f x) = rnd (IZR n / 10000).
Proof. destruct x; cbn [value round_f]; [intros _; apply py_near|apply np_near]. Qed.
Lemma round_f_twice x : Rabs (value x) <= 1000000 -> clear (value x) -> value (round_f (round_f x)) = rnd (IZR (rint (value x * 10000)) / 10000).
Proof.
  intros Hx Hc. apply clear_int in Hc. set (n := rint (value x * 10000)) in *.
  assert (E : value (round_f x) = rnd (IZR n / 10000)). { apply round_f_near; [lra|]. lra. }
  assert (G : Rabs (IZR n) <= 10000000001) by (now apply grid_size).
  pose proof (grid n G) as Gn. apply round_f_near; rewrite E; [|lra].
  apply Rabs_le_between in Gn, G. apply Rabs_le. lra.
Qed.
Lemma round4_eq x y : round4 x = round4 y <-> rint (x * 10000) = rint (y * 10000).
Proof.
  unfold round4, round_dec. replace (10 ^ 4) with 10000 by ring. split; [|now intros ->].
  intros E. apply eq_IZR. apply Rmult_eq_reg_r with (/ 10000); [exact E|lra].
Qed.
Lemma decision y t w : Rabs t <= 400000 -> Rabs (y - t) <= / 100000000 -> clear t -> Rabs (value w) <= 1000000 -> clear (value w) ->
  Reqb (np_round4 y) (value (round_f (round_f w))) = Reqb (round4 t) (round4 (round4 (value w))).
Proof.
  intros Ht Hy Ct Hw Cw. rewrite round_f_twice by assumption. apply clear_int in Ct. set (n := rint (t * 10000)) in *.
  rewrite (np_near y n); [|apply Rabs_le_between in Ht, Hy; apply Rabs_le; lra|apply Rabs_le_between in Hy, Ct; apply Rabs_le; lra].
  rewrite round4_idem. set (m := rint (value w * 10000)).
  assert (Gn : Rabs (IZR n) <= 10000000001) by (apply grid_size; lra).
  assert (Gm : Rabs (IZR m) <= 10000000001) by (now apply grid_size).
  unfold Reqb. destruct (Req_EM_T _ _) as [E|E], (Req_EM_T (round4 t) _) as [F|F]; try reflexivity; exfalso.
  - apply grid_inj in E; try assumption. apply F, round4_eq. assumption.
  - apply E. apply round4_eq in F. fold n m in F. now rewrite F.
Qed.
Lemma fmul_err a f P : (Z.abs a <= P)%Z -> IZR P * Rabs f <= 100000 -> Rabs (IZR a * f) <= 100000 /\ Rabs (fmul a f - IZR a * f) <= / 10000000000.
Proof.
  intros Ha Hf. assert (B : Rabs (IZR a * f) <= 100000).
  { eapply Rle_trans; [|exact Hf]. rewrite Rabs_mult. apply Rmult_le_compat_r; [apply Rabs_pos|]. rewrite <- abs_IZR. now apply IZR_le. }
  split; [assumption|]. eapply Rle_trans; [apply (rnd_err _ _ B)|]. unfold u53. lra.
Qed.
Lemma fadd_err x y x' y' d : Rabs (x' + y') <= 400000 -> Rabs (x - x') <= d -> Rabs (y - y') <= / 10000000000 -> d <= 1 ->
  Rabs (fadd x y - (x' + y')) <= d + 2 / 10000000000.
Proof.
  intros H Hx Hy Hd. unfold fadd. apply Rabs_le_between in H, Hx, Hy.
  assert (B : Rabs (x + y) <= 400002) by (apply Rabs_le; lra). assert (E := rnd_err _ _ B). apply Rabs_le_between in E. unfold u53 in E. apply Rabs_le. lra.
Qed.
Lemma in_harm P a : In a (harm_range P) <-> (- Z.of_nat P <= a <= Z.of_nat P)%Z.
Proof. unfold harm_range. rewrite <- in_rev, rng_sym. apply in_sym. Qed.
Lemma in_index P l : (forall a, In a l -> In a (harm_range P)) -> In l (index_vectors P (length l)).
Proof. intros H. apply in_index_vectors. split; [reflexivity|]. apply List.Forall_forall. intros a Ha. apply in_harm, H, Ha. Qed.

Section Tones.
Variables (P : nat) (freq : nat -> R) (w : fnum).
Hypothesis Hw : Rabs (value w) <= 1000000.
Hypothesis Cw : clear (value w).
Let ok n := (forall f, (1 <= f <= n)%nat -> INR P * Rabs (freq f) <= 100000) /\ (forall a, In a (index_vectors P n) -> clear (dot a (map freq (seq 1 n)))).
Lemma harm_err a f n : ok n -> (1 <= f <= n)%nat -> In a (harm_range P) -> Rabs (IZR a * freq f) <= 100000 /\ Rabs (fmul a (freq f) - IZR a * freq f) <= / 10000000000.
Proof. intros [H _] Hf Ha. apply in_harm in Ha. apply fmul_err with (Z.of_nat P); [lia|]. rewrite <- INR_IZR_INZ. now apply H. Qed.
Lemma one_f ccc rm b1 : ok 1 -> current_1_tone_f (round_f w) ccc freq rm P b1 = current_1_tone (round4 (value w)) ccc freq rm P b1.
Proof.
  intros O. unfold current_1_tone_f, current_1_tone. apply foreach_ext. intros a cur Ha.
  destruct (harm_err a 1 1 O ltac:(lia) Ha) as [Ba Ea].
  rewrite (decision _ (IZR a * freq 1%nat)); [reflexivity|lra|lra| |assumption|assumption].
  replace (IZR a * freq 1%nat) with (dot [a] (map freq (seq 1 1))) by (cbn [map seq dot]; ring). apply O, (in_index P [a]). intros x [<- |[]]. assumption.
Qed.
Lemma two_f ccc rm b1 b2 : ok 2 -> current_2_tones_f (round_f w) ccc freq rm P b1 b2 = current_2_tones (round4 (value w)) ccc freq rm P b1 b2.
Proof.
  intros O. unfold current_2_tones_f, current_2_tones. apply foreach_ext. intros a cur Ha. apply foreach_ext. intros b cur' Hb.
  destruct (harm_err a 1 2 O ltac:(lia) Ha) as [Ba Ea]. destruct (harm_err b 2 2 O ltac:(lia) Hb) as [Bb Eb].
  assert (S2 : Rabs (IZR a * freq 1%nat + IZR b * freq 2%nat) <= 200000) by (apply Rabs_le_between in Ba, Bb; apply Rabs_le; lra).
  assert (E2 := fun A B => fadd_err _ _ _ _ _ A Ea Eb B). specialize (E2 ltac:(lra) ltac:(lra)).
  rewrite (decision _ (IZR a * freq 1%nat + IZR b * freq 2%nat)); [reflexivity|lra|lra| |assumption|assumption].
  replace (IZR a * freq 1%nat + IZR b * freq 2%nat) with (dot [a; b] (map freq (seq 1 2))) by (cbn [map seq dot]; ring). apply O, (in_index P [a; b]).
  intros x [<- |[<- |[]]]; assumption.
Qed.
Lemma three_f ccc rm b1 b2 b3 : ok 3 -> current_3_tones_f (round_f w) ccc freq rm P b1 b2 b3 = current_3_tones (round4 (value w)) ccc freq rm P b1 b2 b3.
Proof.
  intros O. unfold current_3_tones_f, current_3_tones. apply foreach_ext. intros a cur Ha. apply foreach_ext. intros b cur' Hb. apply foreach_ext. intros c cur2 Hc.
  destruct (harm_err a 1 3 O ltac:(lia) Ha) as [Ba Ea]. destruct (harm_err b 2 3 O ltac:(lia) Hb) as [Bb Eb]. destruct (harm_err c 3 3 O ltac:(lia) Hc) as [Bc Ec].
  assert (S2 : Rabs (IZR a * freq 1%nat + IZR b * freq 2%nat) <= 200000) by (apply Rabs_le_between in Ba, Bb; apply Rabs_le; lra).
  assert (S3 : Rabs (IZR a * freq 1%nat + IZR b * freq 2%nat + IZR c * freq 3%nat) <= 300000) by (apply Rabs_le_between in S2, Bc; apply Rabs_le; lra).
  assert (E2 := fun A B => fadd_err _ _ _ _ _ A Ea Eb B). specialize (E2 ltac:(lra) ltac:(lra)).
  assert (E3 := fun A B => fadd_err _ _ _ _ _ A E2 Ec B). specialize (E3 ltac:(lra) ltac:(lra)).
  rewrite (decision _ (IZR a * freq 1%nat + IZR b * freq 2%nat + IZR c * freq 3%nat)); [reflexivity|lra|lra| |assumption|assumption].
  replace (IZR a * freq 1%nat + IZR b * freq 2%nat + IZR c * freq 3%nat) with (dot [a; b; c] (map freq (seq 1 3))) by (cbn [map seq dot]; ring). apply O, (in_index P [a; b; c]).
  intros x [<- |[<- |[<- |[]]]]; assumption.
Qed.
Lemma four_f ccc rm b1 b2 b3 b4 : ok 4 -> current_4_tones_f (round_f w) ccc freq rm P b1 b2 b3 b4 = current_4_tones (round4 (value w)) ccc freq rm P b1 b2 b3 b4.
Proof.
  intros O. unfold current_4_tones_f, current_4_tones. apply foreach_ext. intros a cur Ha. apply foreach_ext. intros b cur' Hb. apply foreach_ext. intros c cur2 Hc. apply foreach_ext. intros d cur3 Hd.
  destruct (harm_err a 1 4 O ltac:(lia) Ha) as [Ba Ea]. destruct (harm_err b 2 4 O ltac:(lia) Hb) as [Bb Eb]. destruct (harm_err c 3 4 O ltac:(lia) Hc) as [Bc Ec]. destruct (harm_err d 4 4 O ltac:(lia) Hd) as [Bd Ed].
  assert (S2 : Rabs (IZR a * freq 1%nat + IZR b * freq 2%nat) <= 200000) by (apply Rabs_le_between in Ba, Bb; apply Rabs_le; lra).
  assert (S3 : Rabs (IZR a * freq 1%nat + IZR b * freq 2%nat + IZR c * freq 3%nat) <= 300000) by (apply Rabs_le_between in S2, Bc; apply Rabs_le; lra).
  assert (S4 : Rabs (IZR a * freq 1%nat + IZR b * freq 2%nat + IZR c * freq 3%nat + IZR d * freq 4%nat) <= 400000) by (apply Rabs_le_between in S3, Bd; apply Rabs_le; lra).
  assert (E2 := fun A B => fadd_err _ _ _ _ _ A Ea Eb B). specialize (E2 ltac:(lra) ltac:(lra)).
  assert (E3 := fun A B => fadd_err _ _ _ _ _ A E2 Ec B). specialize (E3 ltac:(lra) ltac:(lra)).
  assert (E4 := fun A B => fadd_err _ _ _ _ _ A E3 Ed B). specialize (E4 ltac:(lra) ltac:(lra)).
  rewrite (decision _ (IZR a * freq 1%nat + IZR b * freq 2%nat + IZR c * freq 3%nat + IZR d * freq 4%nat)); [reflexivity|lra|lra| |assumption|assumption].
  replace (IZR a * freq 1%nat + IZR b * freq 2%nat + IZR c * freq 3%nat + IZR d * freq 4%nat) with (dot [a; b; c; d] (map freq (seq 1 4))) by (cbn [map seq dot]; ring). apply O, (in_index P [a; b; c; d]).
  intros x [<- |[<- |[<- |[<- |[]]]]]; assumption.
Qed.
Lemma n_f n ccc rm nb : ok n -> current_n_tones_f n (round_f w) ccc freq rm P nb = current_n_tones n (round4 (value w)) ccc freq rm P nb.
Proof.
  intros O. destruct n as [|[|[|[|[|n]]]]]; try reflexivity; cbn [current_n_tones_f current_n_tones].
  - destruct nb as [|b1 [|]]; try reflexivity. now apply one_f.
  - destruct nb as [|b1 [|b2 [|]]]; try reflexivity. now apply two_f.
  - destruct nb as [|b1 [|b2 [|b3 [|]]]]; try reflexivity. now apply three_f.
  - destruct nb as [|b1 [|b2 [|b3 [|b4 [|]]]]]; try reflexivity. now apply four_f.
Qed.
End Tones.

Lemma in_zrange_lt a b x : In x (zrange a b) -> (a <= x < b)%Z.
Proof. unfold zrange. intros H. apply in_map_iff in H. destruct H as (i & <- & Hi). apply in_seq in Hi. lia. Qed.
Lemma conv_pass_same jac nb p last : (Z.of_nat nb < 2 ^ 51)%Z -> (0 < p < 2 ^ 53)%Z -> conv_pass_f jac nb p last = conv_pass jac nb p last.
Proof.
  intros Hb Hp. unfold conv_pass_f, conv_pass. apply foreach_ext. intros k cur Hk. apply in_zrange_lt in Hk.
  rewrite !int_div_quot by lia. reflexivity.
Qed.
Lemma convolve_same jac : (Z.of_nat ((j_nk jac - 1) / 2) < 2 ^ 51)%Z -> (Z.of_nat (j_np jac) < 2 ^ 52)%Z -> convolve_coefficients_f jac = convolve_coefficients jac.
Proof.
  intros Hk Hp. unfold convolve_coefficients_f, convolve_coefficients. cbv zeta. destruct (nbidx _ _); cbn [bind]; [|reflexivity].
  destruct (_ =? _)%nat; [reflexivity|]. f_equal. apply foreach_ext. intros p last H. apply in_zrange_lt in H. apply conv_pass_same; lia.
Qed.
Lemma factor_same J vj freq nf np num_b : (Z.of_nat np < 2 ^ 50)%Z -> (Z.of_nat (list_max (nbtuple num_b nf)) < 2 ^ 50)%Z ->
  calculate_phase_factor_coeff_f J vj freq nf np num_b = calculate_phase_factor_coeff J vj freq nf np num_b.
Proof.
  intros Hp Hb. unfold calculate_phase_factor_coeff_f, calculate_phase_factor_coeff. cbv zeta. fold (nbtuple num_b nf).
  destruct (guard _ _); cbn [bind]; [|reflexivity].
  destruct (build_jac J vj freq nf np (nbtuple num_b nf)) as [jac|e] eqn:E; cbn [bind]; [|reflexivity].
  unfold build_jac in E. cbv zeta in E.
  match type of E with bind ?x _ = _ => destruct x as [r|]; cbn [bind] in E; [|discriminate] end.
  injection E as <-. apply convolve_same; cbn [j_nk j_np]; [|lia].
  replace (list_max (nbtuple num_b nf) * 2 + 1 - 1)%nat with (list_max (nbtuple num_b nf) * 2)%nat by lia. rewrite Nat.div_mul by lia. lia.
Qed.
Lemma mapM_map_ext {A B X Y} (f : A -> res B) (g : Y -> res B) (p : X -> A) (q : X -> Y) l : (forall x, In x l -> f (p x) = g (q x)) -> mapM f (map p l) = mapM g (map q l).
Proof.
  induction l as [|x l IH]; intros H; [reflexivity|]. cbn [map mapM]. rewrite H by (now left). rewrite IH by (intros y Hy; apply H; now right). reflexivity.
Qed.
Lemma clear_zero x : Rabs x <= 1000000 -> clear x -> Reqb (py_round4 x) 0 = Reqb (round4 x) 0.
Proof.
  intros Hx Hc. assert (G := grid_size x Hx). unfold py_round4, round4, round_dec. replace (10 ^ 4) with 10000 by ring. set (n := rint (x * 10000)) in *.
  unfold Reqb. destruct (Req_EM_T _ _) as [E|E], (Req_EM_T (IZR n / 10000) _) as [F|F]; try reflexivity; exfalso.
  - assert (Z0 : rnd (IZR n / 10000) = rnd (IZR 0 / 10000)) by (rewrite E; unfold Rdiv; rewrite Rmult_0_l; symmetry; apply (rnd_int 0); lia).
    apply grid_inj in Z0; [|assumption|rewrite Rabs_R0; lra]. apply F. rewrite Z0. lra.
  - apply E. rewrite F. apply (rnd_int 0). lia.
Qed.
Lemma qt_same J vj cct resp fl num_b rm : moderate cct num_b fl -> (forall w, In w (requested fl) -> clear w) ->
  (forall a, In a (index_vectors (q_num_p cct) (q_num_f cct)) -> clear (dot a (freqs cct))) ->
  qtcurrent_f J vj cct resp fl num_b rm = qtcurrent J vj cct resp (exact_request fl) num_b rm.
Proof.
  intros (Hp & Hb & Hf & Hw) Cw Ca. unfold qtcurrent_f, qtcurrent. cbv zeta. destruct (guard _ _); cbn [bind]; [|reflexivity].
  destruct (unpack_num_b _ _) as [nbl|]; cbn [bind]; [|reflexivity].
  rewrite factor_same by assumption. destruct (calculate_phase_factor_coeff _ _ _ _ _ _) as [ccc|]; cbn [bind]; [|reflexivity].
  match goal with |- bind ?x _ = _ => destruct x as [m|]; cbn [bind]; [|reflexivity] end.
  set (l := match fl with SList l => l | SScalar x => [PyFloat x] end).
  replace (map round4 match exact_request fl with FList l => l | FScalar x => [x] end) with (map (fun x => round4 (value x)) l)
    by (subst l; destruct fl; cbn [exact_request map]; rewrite ?map_map; reflexivity).
  assert (L : forall x, In x l -> In (value x) (requested fl)).
  { subst l. unfold requested. destruct fl; cbn [exact_request flist]; intros y Hy; [now apply in_map|]. destruct Hy as [<- |[]]. now left. }
  rewrite (mapM_map_ext _ (fun w => current_n_tones (q_num_f cct) w ccc (q_freq cct) m (q_num_p cct) nbl) round_f (fun x => round4 (value x))).
  2:{ intros x Hx. apply n_f; [apply Hw, L, Hx|apply Cw, L, Hx|]. split; [exact Hf|exact Ca]. }
  destruct (mapM _ _) as [rows|]; cbn [bind]; [|reflexivity].
  destruct fl as [fl|x]; cbn [exact_request]; [reflexivity|]. subst l. cbn [map round_f value].
  rewrite clear_zero; [reflexivity|apply Hw; now left|apply Cw; now left].
Qed.
