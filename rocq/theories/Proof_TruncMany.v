(** How much the truncations change the balance of a circuit of several tones. *)
From Coq Require Import List ZArith Lia Bool Arith Reals Lra String.
From Coquelicot Require Import Coquelicot.
From Verif Require Import Base Sums Round Bessel Model_QtCurrent Spec_QtCurrent Spec_QtApi Spec_Power Proof_QtCurrent Proof_QtCurrent2 Proof_QtSym
  Proof_QtApi Proof_QtApi2 Proof_QtWit Proof_Bessel Proof_Bessel2 Proof_Weights Proof_Power Proof_Power2 Model_Circuit Model_HB Spec_HB Spec_HBConv Proof_HB3 Proof_HBConv Proof_HBConv2 Proof_HBLip Proof_HBLip2 Proof_HBConv3 Proof_Lip1 Spec_LipMany Proof_LipMany Spec_TruncMany.
From Verif Require Proof_LipTrunc Proof_HBStable.
Import ListNotations.
Local Notation length := List.length.
Open Scope R_scope.

(** ** Two truncations of the same tones *)
Definition pairs := (nat * nat * (R * C))%type.
Definition p_b (t : pairs) : nat := fst (fst t).
Definition p_b' (t : pairs) : nat := snd (fst t).
Definition p_a (t : pairs) : R := fst (snd t).
Definition p_v (t : pairs) : C := snd (snd t).
Definition low (t : pairs) : tone := plain (p_b t) (p_a t) (p_v t).
Definition high (t : pairs) : tone := plain (p_b' t) (p_a t) (p_v t).
Definition p_miss (t : pairs) : R := sqrt (1 - captured (p_b t) (Cmod (p_v t) / p_a t)).
Definition p_drive (t : pairs) : drive := (p_b t, p_a t, (p_v t, p_v t)).

Lemma moved_near b b' x a d n : (b <= b')%nat -> rsum (sym n) (fun k => Cmod (cut b (cut b (coef x a)) (k + d)%Z - cut b' (cut b' (coef x a)) (k + d)%Z)%C ^ 2) <= sqrt (1 - captured b (Cmod x / a)) ^ 2.
Proof.
  intros L. rewrite pow2_sqrt by (pose proof (captured_bounds b (Cmod x / a)); lra).
  rewrite (rsum_ext _ _ (fun k => Cmod (cut b (coef x a) (k + d)%Z - cut b' (coef x a) (k + d)%Z)%C ^ 2)) by (intros k _; now rewrite !cut_cut).
  apply (moved n d (fun k => Cmod (cut b (coef x a) k - cut b' (coef x a) k)%C ^ 2)); [intros; apply pow2_ge_0|]. intros m. now apply Proof_LipTrunc.left_out.
Qed.
Lemma plain_near b b' x a n : (b <= b')%nat -> rsum (sym n) (fun k => Cmod (cut b (coef x a) k - cut b' (coef x a) k)%C ^ 2) <= sqrt (1 - captured b (Cmod x / a)) ^ 2.
Proof. intros L. eapply Rle_trans; [|apply (moved_near b b' x a 0 n L)]. right. apply rsum_ext. intros k _. now rewrite Z.add_0_r, !cut_cut. Qed.
Lemma box_wider ts : (forall t, In t ts -> (p_b t <= p_b' t)%nat) -> forall ks, in_box (map p_b ts) ks -> in_box (map p_b' ts) ks.
Proof.
  induction ts as [|t ts IH]; intros L ks K; inversion K; subst; cbn [map] in *; constructor.
  - pose proof (L t (or_introl eq_refl)). lia.
  - apply IH; [intros; apply L; now right|assumption].
Qed.
Lemma trunc_lip ts : forall a rk M, length a = length ts -> 0 <= M -> (forall t, In t ts -> (p_b t <= p_b' t)%nat) -> (forall ks, in_box (map p_b' ts) ks -> Cmod (rk ks) <= M) ->
  Cmod (rs_sum (map low ts) a rk - rs_sum (map high ts) a rk)%C <= 2 * M * rsum ts p_miss.
Proof.
  induction ts as [|t ts IH]; intros [|a0 a] rk M L HM HB H; try discriminate L.
  - cbn [map rs_sum]. replace (rk [] - rk [])%C with (RtoC 0) by ring. rewrite Cmod_0. cbn. lra.
  - cbn [map rs_sum low high plain t_b t_C]. set (b := p_b t). set (b' := p_b' t). set (f := cut b (coef (p_v t) (p_a t))). set (f' := cut b' (coef (p_v t) (p_a t))).
    set (X := fun k => rs_sum (map low ts) a (fun ks => rk (k :: ks))). set (X' := fun k => rs_sum (map high ts) a (fun ks => rk (k :: ks))).
    assert (L' : length a = length ts) by now injection L. assert (LB : (b <= b')%nat) by (apply HB; now left).
    assert (HB' : forall t, In t ts -> (p_b t <= p_b' t)%nat) by (intros; apply HB; now right).
    assert (B : forall k, In k (sym b') -> forall ks, in_box (map p_b' ts) ks -> Cmod (rk (k :: ks)) <= M) by (intros k Hk ks K; apply H; cbn [map]; constructor; [now apply in_sym|assumption]).
    assert (BX : forall k, In k (sym b') -> Cmod (X k) <= M).
    { intros k Hk. unfold X. replace (map low ts) with (map at_v (map p_drive ts)) by (rewrite map_map; reflexivity). apply many_1; [now rewrite map_length|assumption|]. intros ks K. rewrite map_map in K. apply (B k Hk). now apply box_wider. }
    assert (DX : forall k, In k (sym b') -> Cmod (X k - X' k)%C <= 2 * M * rsum ts p_miss) by (intros k Hk; apply IH; [assumption|assumption|assumption|now apply B]).
    change (Cmod (pair_sum b f (fun k => cut b f (k + a0)%Z) X - pair_sum b' f' (fun k => cut b' f' (k + a0)%Z) X')%C <= 2 * M * (p_miss t + rsum ts p_miss)).
    assert (S : 0 <= rsum ts p_miss) by (apply rsum_nonneg; intros; apply sqrt_pos).
    assert (W : pair_sum b f (fun k => cut b f (k + a0)%Z) X = pair_sum b' f (fun k => cut b f (k + a0)%Z) X) by (apply Proof_LipTrunc.pair_wider; exact LB). rewrite W.
    assert (T1 : Cmod (pair_sum b' f (fun k => cut b f (k + a0)%Z) X - pair_sum b' f' (fun k => cut b' f' (k + a0)%Z) X)%C <= 2 * M * p_miss t).
    { apply Proof_LipTrunc.pair_lip'; [assumption|apply sqrt_pos|assumption|apply cuts_1|apply plain_1|now apply plain_near|now apply moved_near]. }
    assert (T2 : Cmod (pair_sum b' f' (fun k => cut b' f' (k + a0)%Z) (fun k => X k - X' k)%C) <= 2 * M * rsum ts p_miss).
    { apply pair_1; [apply Rmult_le_pos; lra|assumption|apply plain_1|apply cuts_1]. }
    set (P := pair_sum b' f _ X) in *. set (P' := pair_sum b' f' _ X) in *.
    assert (E : pair_sum b' f' (fun k => cut b' f' (k + a0)%Z) X' = (P' - pair_sum b' f' (fun k => cut b' f' (k + a0)%Z) (fun k => X k - X' k))%C).
    { unfold P', pair_sum, Cminus. rewrite <- csum_opp, <- csum_plus. apply csum_ext. intros k _. ring. }
    rewrite E. set (Q := pair_sum b' f' _ (fun k => X k - X' k)%C) in *. replace (P - (P' - Q))%C with ((P - P') + Q)%C by ring. eapply Rle_trans; [apply Cmod_triangle|]. lra.
Qed.
Lemma coeff_trunc ts a rk M : length a = length ts -> 0 <= M -> (forall t, In t ts -> (p_b t <= p_b' t)%nat) -> (forall ks, in_box (map p_b' ts) ks -> Cmod (rk ks) <= M) ->
  Cmod (coeff (map low ts) a rk - coeff (map high ts) a rk)%C <= 4 * M * rsum ts p_miss.
Proof.
  intros L HM HA H. assert (P1 := trunc_lip ts a rk M L HM HA H). assert (P2 := trunc_lip ts (map Z.opp a) rk M ltac:(now rewrite map_length) HM HA H).
  destruct (forallb (fun x => x =? 0)%Z a) eqn:E.
  - assert (S : 0 <= M * rsum ts p_miss) by (apply Rmult_le_pos; [assumption|apply rsum_nonneg; intros; apply sqrt_pos]). unfold coeff. rewrite E. rewrite <- RtoC_minus, Cmod_R. apply Rle_trans with (2 * M * rsum ts p_miss); [|lra]. eapply Rle_trans; [|exact P1]. apply (proj2 (part_le (_ - _)%C)).
  - rewrite !coeff_parts by assumption. set (A := rs_sum (map low ts) a rk) in *. set (A' := rs_sum (map high ts) a rk) in *. set (B := rs_sum (map low ts) (map Z.opp a) rk) in *. set (B' := rs_sum (map high ts) (map Z.opp a) rk) in *.
    replace (- Ci * A + Ci * Cconj B - (- Ci * A' + Ci * Cconj B'))%C with (- Ci * (A - A') + Ci * (Cconj B - Cconj B'))%C by ring.
    eapply Rle_trans; [apply Cmod_triangle|]. rewrite conj_minus, !Cmod_mult, Cmod_opp, Ci_mod, conj_mod, !(Rmult_1_l (Cmod _)). lra.
Qed.

(** ** The currents *)
Section Currents.
Variables (q : qcct) (resp : R -> C) (num_b num_b' : numb) (M : R) (i : nat).
Hypothesis A : args_ok q num_b.
Hypothesis A' : args_ok q num_b'.
Hypothesis HP : q_num_p q = 1%nat.
Hypothesis W : no_larger q num_b num_b'.
Hypothesis HM : forall x, shifted (q_vb q i) (truncations num_b' (q_num_f q)) (freqs q) x -> Cmod (resp x) <= M.
Definition both (v : arr3) : list pairs := map (fun f => (nth (f - 1) (nbtuple num_b (q_num_f q)) O, nth (f - 1) (nbtuple num_b' (q_num_f q)) O, (q_freq q f, v f 1%nat i))) (seq 1 (q_num_f q)).
Lemma both_low v : tones besselJ v q num_b i = map low (both v).
Proof. unfold tones, both. rewrite map_map, HP. apply map_ext. intros f. rewrite tone_of_phase, phase_factor_1. unfold low, plain, p_b, p_a, p_v, coef, JA. cbn [fst snd]. simpl INR. now rewrite Rmult_1_l. Qed.
Lemma both_high v : tones besselJ v q num_b' i = map high (both v).
Proof. unfold tones, both. rewrite map_map, HP. apply map_ext. intros f. rewrite tone_of_phase, phase_factor_1. unfold high, plain, p_b', p_a, p_v, coef, JA. cbn [fst snd]. simpl INR. now rewrite Rmult_1_l. Qed.
Lemma both_b v : map p_b' (both v) = truncations num_b' (q_num_f q).
Proof. rewrite <- (tones_trunc besselJ v q num_b' i A'), (both_high v), map_map. apply map_ext. reflexivity. Qed.
Lemma both_length v : length (both v) = q_num_f q.
Proof. unfold both. now rewrite map_length, seq_length. Qed.
Lemma both_within v t : In t (both v) -> (p_b t <= p_b' t)%nat.
Proof. unfold both. intros H. apply in_map_iff in H. destruct H as [f [<- F]]. apply in_seq in F. cbn. apply W. lia. Qed.
Lemma both_missed v : rsum (both v) p_miss = missed q num_b v i.
Proof.
  transitivity (rsum (seq 1 (q_num_f q)) (fun f => sqrt (1 - captured (nth (f - 1) (nbtuple num_b (q_num_f q)) 0%nat) (Cmod (v f 1%nat i) / q_freq q f)))).
  2:{ rewrite rsum_seq. unfold missed, photons. apply rsum_to_ext. intros f _. now rewrite Nat.sub_succ, Nat.sub_0_r. }
  unfold both. generalize (seq 1 (q_num_f q)). induction l as [|f l IH]; [reflexivity|]. cbn [map rsum]. now rewrite IH.
Qed.
Lemma missed_nonneg v : 0 <= missed q num_b v i.
Proof. rewrite <- both_missed. apply rsum_nonneg. intros; apply sqrt_pos. Qed.
Theorem truncated v w a : alone q w a ->
  Cmod (current (q_num_p q) (tones besselJ v q num_b i) (freqs q) (q_vb q i) resp w - current (q_num_p q) (tones besselJ v q num_b' i) (freqs q) (q_vb q i) resp w)%C <= 4 * M * missed q num_b v i.
Proof.
  intros AL. assert (M0 := many_M q resp num_b' M i A' HP HM). assert (S0 := missed_nonneg v). assert (Z0 : 0 <= 4 * M * missed q num_b v i) by (apply Rmult_le_pos; lra).
  destruct (in_dec (list_eq_dec Z.eq_dec) a (index_vectors (q_num_p q) (q_num_f q))) as [IN|NI]; [destruct (Req_EM_T (round4 (dot a (freqs q))) (round4 w)) as [E|NE]|].
  - rewrite !(lone q resp _ _ w a) by (auto using tones_length). rewrite (both_low v), (both_high v), <- both_missed. apply coeff_trunc.
    + rewrite both_length. now apply index_vectors_length in IN.
    + assumption.
    + apply both_within.
    + intros ks K. rewrite both_b in K. apply HM. exists ks. auto.
  - rewrite !(none q resp _ _ w a) by (try apply tones_length; try assumption; tauto). replace (RtoC 0 - RtoC 0)%C with (RtoC 0) by ring. now rewrite Cmod_0.
  - rewrite !(none q resp _ _ w a) by (try apply tones_length; try assumption; tauto). replace (RtoC 0 - RtoC 0)%C with (RtoC 0) by ring. now rewrite Cmod_0.
Qed.
End Currents.
Theorem truncated_call q resp num_b num_b' M v w a r r' i : args_ok q num_b -> args_ok q num_b' -> q_num_p q = 1%nat -> no_larger q num_b num_b' -> alone q w a -> (i < q_npts q)%nat ->
  (forall x, shifted (q_vb q i) (truncations num_b' (q_num_f q)) (freqs q) x -> Cmod (resp x) <= M) ->
  qtcurrent besselJ v q resp (FList [w]) num_b None = Ok (QRows [r]) -> qtcurrent besselJ v q resp (FList [w]) num_b' None = Ok (QRows [r']) ->
  Cmod (nth i r (RtoC 0) - nth i r' (RtoC 0))%C <= 4 * M * missed q num_b v i.
Proof.
  intros A A' P1 W AL Hi B E E'. rewrite qt_list in E, E' by assumption. cbn [map] in E, E'. inversion E; subst r. inversion E'; subst r'. unfold spec_row. rewrite !nth_tab by assumption.
  exact (truncated q resp num_b num_b' M i A' P1 W B v w a AL).
Qed.

(** ** Two balances *)
Section Balance.
Variables (c : hcct) (resp : R -> C) (M nu : R).
Local Notation q := (h_q c).
Local Notation kk := (4 * M * impedances c / nu).
Hypothesis HP : q_num_p q = 1%nat.
Hypothesis HT : separate q.
Hypothesis P0 : 0 <= M.
Hypothesis N0 : 0 < nu.
Hypothesis HN : forall f, (1 <= f <= q_num_f q)%nat -> nu <= q_freq q f.
Hypothesis HZ : 4 * M * impedances c < nu.
Lemma imp_nonneg : 0 <= impedances c.
Proof. exact (zsum_nonneg c). Qed.
Lemma kk_range : 0 <= kk < 1.
Proof.
  pose proof imp_nonneg. assert (0 <= M * impedances c) by now apply Rmult_le_pos. split; [apply Rmult_le_pos; [lra|apply Rlt_le, Rinv_0_lt_compat; lra]|].
  apply Rmult_lt_reg_r with nu; [lra|]. replace (kk * nu) with (4 * M * impedances c) by (field; lra). lra.
Qed.
Definition bounded num_b : Prop := forall i x, (i < q_npts q)%nat -> shifted (q_vb q i) (truncations num_b (q_num_f q)) (freqs q) x -> Cmod (resp x) <= M.
Lemma imbalance_wider num_b num_b' v i : args_ok q num_b -> args_ok q num_b' -> no_larger q num_b num_b' -> bounded num_b' -> (i < q_npts q)%nat ->
  imbalance besselJ c resp num_b' v i <= imbalance besselJ c resp num_b v i + 4 * M * impedances c * missed q num_b v i.
Proof.
  intros A A' W B Hi. unfold imbalance. rewrite !(many_total c HP).
  assert (S : forall f, (f < q_num_f q)%nat -> Cmod (residual_at besselJ c resp num_b' v (S f) 1 i) <= Cmod (residual_at besselJ c resp num_b v (S f) 1 i) + 4 * M * missed q num_b v i * Cmod (h_zt c (S f) 1%nat)).
  { intros f F. unfold residual_at, current_at. rewrite !many_freq. destruct (HT (S f)) as [a AL]; [lia|]. pose proof (truncated q resp num_b num_b' M i A' HP W (fun x => B i x Hi) v (q_freq q (S f)) a AL) as T. set (D := missed _ _ _ _) in *.
    set (I1 := current _ (tones _ _ _ num_b _) _ _ _ _) in *. set (I2 := current _ (tones _ _ _ num_b' _) _ _ _ _) in *. set (s := h_vt c (S f) 1%nat). set (Z := h_zt c (S f) 1%nat) in *. set (x := v (S f) 1%nat i) in *.
    replace (s - Z * I2 - x)%C with ((s - Z * I1 - x) + Z * (I1 - I2))%C by ring. eapply Rle_trans; [apply Cmod_triangle|]. apply Rplus_le_compat_l. rewrite Cmod_mult, (Rmult_comm (Cmod Z)). apply Rmult_le_compat_r; [apply Cmod_ge_0|assumption]. }
  eapply Rle_trans; [apply rsum_to_le; exact S|]. right.
  assert (PL : forall n f g, rsum_to n (fun k => f k + g k) = rsum_to n f + rsum_to n g) by (induction n as [|n IHn]; intros; cbn [rsum_to]; [ring|rewrite IHn; ring]).
  rewrite PL, (rsum_to_scal (q_num_f q) (4 * M * missed q num_b v i) (fun f => Cmod (h_zt c (Datatypes.S f) 1%nat))). fold (impedances c). ring.
Qed.
Theorem near_wider num_b num_b' v s i : args_ok q num_b -> args_ok q num_b' -> no_larger q num_b num_b' -> bounded num_b' -> solution besselJ c resp num_b' s -> (i < q_npts q)%nat ->
  (1 - kk) * distance q v s i <= imbalance besselJ c resp num_b v i + 4 * M * impedances c * missed q num_b v i.
Proof.
  intros A A' W B S Hi. eapply Rle_trans; [apply (near_solution besselJ c resp num_b' kk)|now apply (imbalance_wider num_b num_b')]; [|assumption|apply kk_range|assumption].
  apply (many_follows c resp num_b' M A' HP HT B P0 nu N0 HN).
Qed.
End Balance.

(** ** What a run returns *)
Theorem truncated_run c resp num_b num_b' M nu inv max_it stop vj0 d zj v it s : q_num_p (h_q c) = 1%nat -> separate (h_q c) -> 0 <= M -> 0 < nu -> (forall f, (1 <= f <= q_num_f (h_q c))%nat -> nu <= q_freq (h_q c) f) ->
  4 * M * impedances c < nu -> args_ok (h_q c) num_b' -> no_larger (h_q c) num_b num_b' ->
  (forall i x, (i < q_npts (h_q c))%nat -> shifted (q_vb (h_q c) i) (truncations num_b' (q_num_f (h_q c))) (freqs (h_q c)) x -> Cmod (resp x) <= M) ->
  simulates c num_b -> inverts inv -> (0 <= max_it)%Z -> r_ret (harmonic_balance besselJ inv c resp num_b max_it stop vj0 d "x" zj) = Ok (RetX v it true) ->
  everywhere (h_q c) (fun f p i => ~ undefined besselJ (driven c) resp num_b v f p i) -> solution besselJ (driven c) resp num_b' s ->
  forall i, (i < q_npts (h_q c))%nat -> (1 - 4 * M * impedances c / nu) * distance (h_q c) v s i <= stop * total (h_q c) (fun f p => Cmod (v f p i)) + 4 * M * impedances c * missed (h_q c) num_b v i.
Proof.
  intros HP HT P0 N0 HN HZ A' W B HS INV HM R1 U SOL i Hi.
  pose proof (Proof_HBStable.run_imbalance besselJ inv c resp num_b max_it stop vj0 d zj v it i HS INV HM R1 U Hi) as I.
  pose proof (near_wider (driven c) resp M nu HP HT P0 N0 HN HZ num_b num_b' v s i (proj1 HS) A' W B SOL Hi) as H. cbn [h_q driven] in H. change (impedances (driven c)) with (impedances c) in H. lra.
Qed.

(** ** Growing truncations *)
Section Grow.
Variables (c : hcct) (resp : R -> C) (M : R).
Local Notation q := (h_q c).
Hypothesis A : forall b, args_ok q (NbInt b).
Hypothesis HP : q_num_p q = 1%nat.
Hypothesis HT : separate q.
Hypothesis P0 : 0 <= M.
Hypothesis HR : forall x, Cmod (resp x) <= M.
Hypothesis HZ : forall f, (1 <= f <= q_num_f q)%nat -> 4 * M * impedances c < q_freq q f.
Lemma lowest : exists nu, 0 < nu /\ 4 * M * impedances c < nu /\ forall f, (1 <= f <= q_num_f q)%nat -> nu <= q_freq q f.
Proof.
  destruct (margin (q_num_f q) (fun f => q_freq q (S f) - 4 * M * impedances c)) as [m [M0 H]]. { intros k K. cbv beta. assert (H := HZ (S k) ltac:(lia)). lra. }
  assert (0 <= M * impedances c) by (apply Rmult_le_pos; [assumption|apply imp_nonneg]). exists (4 * M * impedances c + m). split; [lra|]. split; [lra|]. intros f F. destruct f as [|f]; [lia|]. assert (Q := H f ltac:(lia)). cbv beta in Q. lra.
Qed.
Lemma any_bounded num_b : bounded c resp M num_b.
Proof. intros i x _ _. apply HR. Qed.
Lemma photons_int b f : (f < q_num_f q)%nat -> photons (NbInt b) (q_num_f q) f = b.
Proof. intros F. unfold photons. cbn [nbtuple]. generalize (q_num_f q) F. clear. induction f as [|f IH]; intros [|n] F; try lia; cbn [repeat nth]; [reflexivity|apply IH; lia]. Qed.
Lemma int_within b b' : (b <= b')%nat -> no_larger q (NbInt b) (NbInt b').
Proof. intros L f F. now rewrite !photons_int. Qed.
Lemma size_of b s f i : solution besselJ c resp (NbInt b) s -> (1 <= f <= q_num_f q)%nat -> (i < q_npts q)%nat -> Cmod (s f 1%nat i) <= Cmod (h_vt c f 1%nat) + 2 * M * Cmod (h_zt c f 1%nat).
Proof.
  intros S F Hi. assert (SG : signal q f 1) by (split; rewrite ?HP; lia). pose proof (S f 1%nat i SG Hi) as E. unfold residual_at in E. pose proof (many_at c resp (NbInt b) M (A b) HP HT (any_bounded (NbInt b)) s f i F Hi) as HI. set (J := current_at _ _ _ _ _ _ _ _) in *.
  assert (ES : s f 1%nat i = (h_vt c f 1%nat - h_zt c f 1%nat * J)%C).
  { transitivity (h_vt c f 1%nat - h_zt c f 1%nat * J - (h_vt c f 1%nat - h_zt c f 1%nat * J - s f 1%nat i))%C; [ring|]. rewrite E. ring. }
  rewrite ES. unfold Cminus. eapply Rle_trans; [apply Cmod_triangle|]. rewrite Cmod_opp, Cmod_mult. apply (Rmult_le_compat_l (Cmod (h_zt c f 1%nat))) in HI; [|apply Cmod_ge_0]. lra.
Qed.
Lemma term_le n g f : (forall k, 0 <= g k) -> (f < n)%nat -> g f <= rsum_to n g.
Proof.
  intros G. assert (NN : forall m, 0 <= rsum_to m g) by (induction m as [|m IH]; cbn [rsum_to]; [lra|specialize (G m); lra]).
  induction n as [|n IH]; intros F; [lia|]. cbn [rsum_to]. destruct (Nat.eq_dec f n) as [->|N]; [specialize (NN n); lra|]. specialize (G n). assert (f < n)%nat by lia. apply IH in H. lra.
Qed.
Theorem truncations_agree eps : 0 < eps -> exists N, forall b b' s s', (N <= b)%nat -> (N <= b')%nat -> solution besselJ c resp (NbInt b) s -> solution besselJ c resp (NbInt b') s' ->
  forall i, (i < q_npts q)%nat -> distance q s s' i <= eps.
Proof.
  intros E0. destruct lowest as (nu & N0 & HZ' & HN). destruct (kk_range c M nu P0 N0 HZ') as [K0 K1]. set (kk := 4 * M * impedances c / nu) in *.
  assert (Z0 := imp_nonneg c). assert (Y0 : 0 <= 4 * M * impedances c) by (apply Rmult_le_pos; lra). set (G := 4 * M * impedances c + 1).
  set (F := INR (q_num_f q) + 1). assert (F0 : 1 <= F) by (unfold F; pose proof (pos_INR (q_num_f q)); lra).
  set (w := fun f => Cmod (h_vt c (S f) 1%nat) + 2 * M * Cmod (h_zt c (S f) 1%nat)).
  assert (w0 : forall f, 0 <= w f). { intros f. unfold w. pose proof (Cmod_ge_0 (h_vt c (S f) 1%nat)). assert (0 <= M * Cmod (h_zt c (S f) 1%nat)) by (apply Rmult_le_pos; [assumption|apply Cmod_ge_0]). lra. }
  set (X := rsum_to (q_num_f q) w / nu). assert (X0 : 0 <= X). { apply Rmult_le_pos; [|apply Rlt_le, Rinv_0_lt_compat, N0]. generalize (q_num_f q). induction n as [|n IH]; cbn [rsum_to]; [lra|]. specialize (w0 n). lra. }
  set (e := (1 - kk) * eps / (G * F)). assert (GF : 0 < G * F) by (apply Rmult_lt_0_compat; unfold G; lra). assert (e0 : 0 < e) by (apply Rdiv_lt_0_compat; [apply Rmult_lt_0_compat; lra|assumption]).
  destruct (Proof_LipTrunc.squares_uniform X (e ^ 2) X0 ltac:(apply pow_lt; assumption)) as [N HNN].
  assert (ONE : forall b b' s s', (N <= b)%nat -> (b <= b')%nat -> solution besselJ c resp (NbInt b) s -> solution besselJ c resp (NbInt b') s' -> forall i, (i < q_npts q)%nat -> distance q s s' i <= eps).
  { intros b b' s s' H1 H2 S S' i Hi. pose proof (near_wider c resp M nu HP HT P0 N0 HN HZ' (NbInt b) (NbInt b') s s' i (A b) (A b') (int_within b b' H2) (any_bounded _) S' Hi) as H. fold kk in H.
    assert (IM : imbalance besselJ c resp (NbInt b) s i = 0).
    { unfold imbalance. rewrite (many_total c HP). rewrite (rsum_to_ext _ _ (fun f => 0 * 0)); [rewrite (rsum_to_scal _ 0 (fun _ => 0)); ring|]. intros f Hf. assert (SG : signal q (Datatypes.S f) 1) by (split; rewrite ?HP; lia). rewrite (S _ _ i SG Hi), Cmod_0. ring. }
    rewrite IM, Rplus_0_l in H.
    assert (MS : missed q (NbInt b) s i <= e * F).
    { unfold missed. apply Rle_trans with (rsum_to (q_num_f q) (fun _ => e * 1)).
      - apply rsum_to_le. intros f Hf. rewrite Rmult_1_r, photons_int by assumption. set (x := Cmod (s (Datatypes.S f) 1%nat i) / q_freq q (Datatypes.S f)).
        assert (FQ := HN (Datatypes.S f) ltac:(lia)). assert (XX : Rabs x <= X).
        { unfold x. rewrite Rabs_pos_eq; [|apply Rmult_le_pos; [apply Cmod_ge_0|apply Rlt_le, Rinv_0_lt_compat; lra]]. unfold X, Rdiv. apply Rmult_le_compat; [apply Cmod_ge_0|apply Rlt_le, Rinv_0_lt_compat; lra| |apply Rinv_le_contravar; assumption].
          eapply Rle_trans; [apply (size_of b s (Datatypes.S f) i S); [lia|assumption]|]. apply (term_le (q_num_f q) w f w0 Hf). }
        specialize (HNN b x H1 XX). rewrite captured_squares. rewrite <- (sqrt_pow2 e) by lra. apply sqrt_le_1_alt. lra.
      - rewrite rsum_to_scal. apply Rmult_le_compat_l; [lra|]. unfold F. generalize (q_num_f q). induction n as [|n IH]; [cbn; lra|]. cbn [rsum_to]. rewrite S_INR. lra. }
    apply Rmult_le_reg_l with (1 - kk); [lra|]. eapply Rle_trans; [exact H|]. apply Rle_trans with (G * (e * F)); [|right; unfold e; field; split; unfold G; lra].
    apply Rmult_le_compat; [assumption|exact (missed_nonneg q (NbInt b) (NbInt b) i s)|unfold G; lra|assumption]. }
  exists N. intros b b' s s' H1 H2 S S' i Hi. destruct (Nat.le_ge_cases b b') as [O|O]; [now apply (ONE b b' s s')|].
  assert (SY : distance q s s' i = distance q s' s i). { unfold distance. rewrite !(many_total c HP). apply rsum_to_ext. intros f _. rewrite <- Cmod_opp. f_equal. ring. } rewrite SY. now apply (ONE b' b s' s).
Qed.
(** The balances converge. *)
Theorem truncations_converge : exists s : arr3, forall eps, 0 < eps -> exists N, forall b sb, (N <= b)%nat -> solution besselJ c resp (NbInt b) sb -> forall f i, (1 <= f <= q_num_f q)%nat -> (i < q_npts q)%nat -> Cmod (sb f 1%nat i - s f 1%nat i)%C <= eps.
Proof.
  destruct lowest as (nu & N0 & HZ' & HN).
  set (S b := limit besselJ c resp (NbInt b)).
  assert (SOL : forall b, solution besselJ c resp (NbInt b) (S b)). { intros b. apply (limit_solution besselJ c resp (NbInt b) _ (kk_range c M nu P0 N0 HZ')). exact (many_follows c resp (NbInt b) M (A b) HP HT (any_bounded _) P0 nu N0 HN). }
  assert (CELL : forall f v w i, (1 <= f <= q_num_f q)%nat -> Cmod (v f 1%nat i - w f 1%nat i)%C <= distance q v w i).
  { intros f v w i F. unfold distance. rewrite (many_total c HP). destruct f as [|f]; [lia|]. apply (term_le (q_num_f q) (fun f => Cmod (v (Datatypes.S f) 1%nat i - w (Datatypes.S f) 1%nat i)%C) f); [intros; apply Cmod_ge_0|lia]. }
  set (s := fun (f p i : nat) => (real (Lim_seq (fun b => fst (S b f p i))), real (Lim_seq (fun b => snd (S b f p i)))) : C). exists s.
  assert (LIM : forall f i, (1 <= f <= q_num_f q)%nat -> (i < q_npts q)%nat -> is_lim_seq (fun b => fst (S b f 1%nat i)) (fst (s f 1%nat i)) /\ is_lim_seq (fun b => snd (S b f 1%nat i)) (snd (s f 1%nat i))).
  { intros f i F Hi. assert (CA : forall pr : C -> R, (forall x y, Rabs (pr x - pr y) <= Cmod (x - y)%C) -> is_lim_seq (fun b => pr (S b f 1%nat i)) (real (Lim_seq (fun b => pr (S b f 1%nat i))))).
    { intros pr Hpr. apply Lim_seq_correct'. apply ex_lim_seq_cauchy_corr. intros eps. destruct (truncations_agree (eps / 2)) as [N HNN]; [destruct eps; cbn; lra|]. exists N. intros n m Hn Hm. eapply Rle_lt_trans; [apply Hpr|]. specialize (HNN n m _ _ Hn Hm (SOL n) (SOL m) i Hi). pose proof (CELL f (S n) (S m) i F). pose proof (cond_pos eps). lra. }
    split; [apply (CA fst)|apply (CA snd)]; intros x y; destruct (part_le (x - y)%C) as [P1 P2]; [exact P1|exact P2]. }
  intros eps E0. destruct (truncations_agree (eps / 2)) as [N HNN]; [lra|]. exists N. intros b sb Hb Sb f i F Hi.
  destruct (LIM f i F Hi) as [L1 L2]. apply is_lim_seq_spec in L1. apply is_lim_seq_spec in L2. assert (E4 : 0 < eps / 4) by lra. destruct (L1 (mkposreal _ E4)) as [N1 H1]. destruct (L2 (mkposreal _ E4)) as [N2 H2]. set (m := (N + N1 + N2)%nat).
  specialize (H1 m ltac:(unfold m; lia)). specialize (H2 m ltac:(unfold m; lia)). cbn [pos] in H1, H2. specialize (HNN b m sb (S m) Hb ltac:(unfold m; lia) Sb (SOL m) i Hi). pose proof (CELL f sb (S m) i F) as CF.
  replace (sb f 1%nat i - s f 1%nat i)%C with ((sb f 1%nat i - S m f 1%nat i) + (S m f 1%nat i - s f 1%nat i))%C by ring. eapply Rle_trans; [apply Cmod_triangle|].
  assert (P : Cmod (S m f 1%nat i - s f 1%nat i)%C <= Rabs (fst (S m f 1%nat i) - fst (s f 1%nat i)) + Rabs (snd (S m f 1%nat i) - snd (s f 1%nat i))) by exact (cmod_parts (S m f 1%nat i - s f 1%nat i)%C). lra.
Qed.
Theorem truncations_solved b : exists sb, solution besselJ c resp (NbInt b) sb.
Proof. destruct lowest as (nu & N0 & HZ' & HN). apply (solution_exists besselJ c resp (NbInt b) _ (kk_range c M nu P0 N0 HZ')). exact (many_follows c resp (NbInt b) M (A b) HP HT (any_bounded _) P0 nu N0 HN). Qed.
End Grow.
