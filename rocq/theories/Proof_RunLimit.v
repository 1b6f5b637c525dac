(** The currents of simulations converge as the truncation grows and the target shrinks. *)
From Coq Require Import List ZArith Lia Bool Arith Reals Lra String.
From Coquelicot Require Import Coquelicot.
From Verif Require Import Base Sums Round Bessel Model_QtCurrent Spec_QtCurrent Spec_QtApi Spec_Power Proof_QtApi Proof_QtApi2 Proof_QtWit Proof_Power Proof_Power2 Model_Circuit Model_HB Spec_HB Spec_HBConv Proof_HB3 Proof_HBConv Proof_HBLip2 Proof_HBConv3 Proof_Lip1 Spec_LipMany Proof_LipMany Spec_TruncMany Proof_TruncMany Proof_RunCurrent.
From Verif Require Proof_HBStable Proof_LipTrunc.
Import ListNotations.
Local Notation length := List.length.
Open Scope R_scope.

Lemma one_of n g f : (forall k, 0 <= g k) -> (f < n)%nat -> g f <= rsum_to n g.
Proof.
  intros G. assert (NN : forall m, 0 <= rsum_to m g) by (induction m as [|m IH]; cbn [rsum_to]; [lra|specialize (G m); lra]).
  induction n as [|n IH]; intros F; [lia|]. cbn [rsum_to]. destruct (Nat.eq_dec f n) as [->|N]; [specialize (NN n); lra|]. specialize (G n). assert (f < n)%nat by lia. apply IH in H. lra.
Qed.
Section Limit.
Variables (c : hcct) (resp : R -> C) (M : R).
Local Notation q := (h_q c).
Hypothesis A : forall b, args_ok q (NbInt b).
Hypothesis HP : q_num_p q = 1%nat.
Hypothesis HT : separate q.
Hypothesis P0 : 0 <= M.
Hypothesis HR : forall x, Cmod (resp x) <= M.
Hypothesis HZ : forall f, (1 <= f <= q_num_f q)%nat -> 4 * M * impedances c < q_freq q f.
Definition sizes : R := rsum_to (q_num_f q) (fun f => Cmod (h_vt c (S f) 1%nat) + 2 * M * Cmod (h_zt c (S f) 1%nat)).
Definition cur (b : nat) (v : arr3) (i : nat) (w : R) : C := current (q_num_p q) (tones besselJ v q (NbInt b) i) (freqs q) (q_vb q i) resp w.
Lemma bounds_nonneg f : 0 <= Cmod (h_vt c (S f) 1%nat) + 2 * M * Cmod (h_zt c (S f) 1%nat).
Proof. pose proof (Cmod_ge_0 (h_vt c (S f) 1%nat)). assert (0 <= M * Cmod (h_zt c (S f) 1%nat)) by (apply Rmult_le_pos; [assumption|apply Cmod_ge_0]). lra. Qed.
Lemma sizes_nonneg : 0 <= sizes.
Proof. unfold sizes. generalize (q_num_f q). induction n as [|n IH]; cbn [rsum_to]; [lra|]. pose proof (bounds_nonneg n). lra. Qed.
Lemma total_size b s i : solution besselJ c resp (NbInt b) s -> (i < q_npts q)%nat -> total q (fun f p => Cmod (s f p i)) <= sizes.
Proof. intros S Hi. rewrite (many_total c HP). apply rsum_to_le. intros f F. apply (size_of c resp M A HP HT HR b s (Datatypes.S f) i S); [lia|assumption]. Qed.
Lemma missed_small eps : 0 < eps -> exists N, forall b s, (N <= b)%nat -> solution besselJ c resp (NbInt b) s -> forall i, (i < q_npts q)%nat -> missed q (NbInt b) s i <= eps.
Proof.
  intros E0. destruct (lowest c M HP P0 HZ) as (nu & N0 & HZ' & HN).
  set (F := INR (q_num_f q) + 1). assert (F0 : 1 <= F) by (unfold F; pose proof (pos_INR (q_num_f q)); lra).
  set (X := sizes / nu). assert (X0 : 0 <= X) by (apply Rmult_le_pos; [apply sizes_nonneg|apply Rlt_le, Rinv_0_lt_compat, N0]).
  set (e := eps / F). assert (e0 : 0 < e) by (apply Rdiv_lt_0_compat; lra).
  destruct (Proof_LipTrunc.squares_uniform X (e ^ 2) X0 ltac:(apply pow_lt; assumption)) as [N HNN]. exists N. intros b s H1 S i Hi.
  unfold missed. apply Rle_trans with (rsum_to (q_num_f q) (fun _ => e * 1)).
  - apply rsum_to_le. intros f Hf. rewrite Rmult_1_r, photons_int by assumption. set (x := Cmod (s (Datatypes.S f) 1%nat i) / q_freq q (Datatypes.S f)).
    assert (FQ := HN (Datatypes.S f) ltac:(lia)). assert (XX : Rabs x <= X).
    { unfold x. rewrite Rabs_pos_eq; [|apply Rmult_le_pos; [apply Cmod_ge_0|apply Rlt_le, Rinv_0_lt_compat; lra]]. unfold X, Rdiv. apply Rmult_le_compat; [apply Cmod_ge_0|apply Rlt_le, Rinv_0_lt_compat; lra| |apply Rinv_le_contravar; assumption].
      eapply Rle_trans; [apply (size_of c resp M A HP HT HR b s (Datatypes.S f) i S); [lia|assumption]|]. apply (one_of (q_num_f q) (fun f => Cmod (h_vt c (Datatypes.S f) 1%nat) + 2 * M * Cmod (h_zt c (Datatypes.S f) 1%nat)) f bounds_nonneg Hf). }
    specialize (HNN b x H1 XX). rewrite captured_squares. rewrite <- (sqrt_pow2 e) by lra. apply sqrt_le_1_alt. lra.
  - rewrite rsum_to_scal. apply Rle_trans with (e * F); [|right; unfold e; field; lra]. apply Rmult_le_compat_l; [lra|]. unfold F. generalize (q_num_f q). induction n as [|n IH]; [cbn; lra|]. cbn [rsum_to]. rewrite S_INR. lra.
Qed.
Lemma cur_lip nu b v s i w a : 0 < nu -> (forall f, (1 <= f <= q_num_f q)%nat -> nu <= q_freq q f) -> alone q w a -> nu * Cmod (cur b v i w - cur b s i w)%C <= 4 * M * distance q v s i.
Proof.
  intros N0 HN AL. pose proof (many_current_lip q resp (NbInt b) M i (A b) HP (fun x _ => HR x) v s w a AL) as L. assert (S0 := steps_nonneg q (NbInt b) i (A b) HP v s).
  apply (through M nu P0 N0 4 _ _ (photon_steps q v s i)); [lra| |apply (steps_distance c nu HP N0 HN)]. eapply Rle_trans; [exact L|]. apply Rmult_le_compat_r; [assumption|]. apply Rmult_le_compat_r; [assumption|]. unfold growth. destruct (forallb _ a); lra.
Qed.
Lemma currents_agree w a eps : alone q w a -> 0 < eps -> exists N, forall b b' s s', (N <= b)%nat -> (N <= b')%nat -> solution besselJ c resp (NbInt b) s -> solution besselJ c resp (NbInt b') s' ->
  forall i, (i < q_npts q)%nat -> Cmod (cur b s i w - cur b' s' i w)%C <= eps.
Proof.
  intros AL E0. destruct (lowest c M HP P0 HZ) as (nu & N0 & HZ' & HN).
  assert (e1 : 0 < nu * eps / (8 * (M + 1))) by (apply Rdiv_lt_0_compat; [apply Rmult_lt_0_compat; assumption|lra]). assert (e2 : 0 < eps / (8 * (M + 1))) by (apply Rdiv_lt_0_compat; lra).
  assert (HALF : M * (eps / (8 * (M + 1))) <= eps / 8). { apply Rmult_le_reg_r with (8 * (M + 1)); [lra|]. replace (M * (eps / (8 * (M + 1))) * (8 * (M + 1))) with (M * eps) by (field; lra). replace (eps / 8 * (8 * (M + 1))) with (M * eps + eps) by field. lra. }
  destruct (truncations_agree c resp M A HP HT P0 HR HZ _ e1) as [N1 H1]. destruct (missed_small _ e2) as [N2 H2]. exists (N1 + N2)%nat.
  assert (ONE : forall b b' s s', (N1 + N2 <= b)%nat -> (b <= b')%nat -> solution besselJ c resp (NbInt b) s -> solution besselJ c resp (NbInt b') s' -> forall i, (i < q_npts q)%nat -> Cmod (cur b s i w - cur b' s' i w)%C <= eps).
  { intros b b' s s' Hb Hb' S S' i Hi. specialize (H1 b b' s s' ltac:(lia) ltac:(lia) S S' i Hi). specialize (H2 b s ltac:(lia) S i Hi).
    pose proof (truncated q resp (NbInt b) (NbInt b') M i (A b') HP (int_within c b b' Hb') (fun x _ => HR x) s w a AL) as T. fold (cur b s i w) in T. fold (cur b' s i w) in T.
    pose proof (cur_lip nu b' s s' i w a N0 HN AL) as L.
    assert (T' : Cmod (cur b s i w - cur b' s i w)%C <= eps / 2). { eapply Rle_trans; [exact T|]. apply Rle_trans with (4 * (M * (eps / (8 * (M + 1))))); [|lra]. rewrite <- Rmult_assoc. apply Rmult_le_compat_l; lra. }
    assert (L' : Cmod (cur b' s i w - cur b' s' i w)%C <= eps / 2).
    { apply Rmult_le_reg_l with nu; [assumption|]. eapply Rle_trans; [exact L|]. apply Rle_trans with (4 * M * (nu * eps / (8 * (M + 1)))); [apply Rmult_le_compat_l; lra|]. replace (4 * M * (nu * eps / (8 * (M + 1)))) with (nu * (4 * (M * (eps / (8 * (M + 1)))))) by (field; lra). apply Rmult_le_compat_l; lra. }
    replace (cur b s i w - cur b' s' i w)%C with ((cur b s i w - cur b' s i w) + (cur b' s i w - cur b' s' i w))%C by ring. eapply Rle_trans; [apply Cmod_triangle|]. lra. }
  intros b b' s s' Hb Hb' S S' i Hi. destruct (Nat.le_ge_cases b b') as [O|O]; [now apply (ONE b b' s s')|]. rewrite <- Cmod_opp. replace (- (cur b s i w - cur b' s' i w))%C with (cur b' s' i w - cur b s i w)%C by ring. now apply (ONE b' b s' s).
Qed.
Theorem currents_converge w a : alone q w a -> exists I : nat -> C, forall eps, 0 < eps -> exists N, forall b s, (N <= b)%nat -> solution besselJ c resp (NbInt b) s -> forall i, (i < q_npts q)%nat -> Cmod (cur b s i w - I i)%C <= eps.
Proof.
  intros AL. destruct (lowest c M HP P0 HZ) as (nu & N0 & HZ' & HN).
  set (S b := limit besselJ c resp (NbInt b)).
  assert (SOL : forall b, solution besselJ c resp (NbInt b) (S b)). { intros b. apply (limit_solution besselJ c resp (NbInt b) _ (kk_range c M nu P0 N0 HZ')). exact (many_follows c resp (NbInt b) M (A b) HP HT (fun i x _ _ => HR x) P0 nu N0 HN). }
  set (I := fun i => (real (Lim_seq (fun b => fst (cur b (S b) i w))), real (Lim_seq (fun b => snd (cur b (S b) i w)))) : C). exists I.
  assert (LIM : forall i, (i < q_npts q)%nat -> is_lim_seq (fun b => fst (cur b (S b) i w)) (fst (I i)) /\ is_lim_seq (fun b => snd (cur b (S b) i w)) (snd (I i))).
  { intros i Hi. assert (CA : forall pr : C -> R, (forall x y, Rabs (pr x - pr y) <= Cmod (x - y)%C) -> is_lim_seq (fun b => pr (cur b (S b) i w)) (real (Lim_seq (fun b => pr (cur b (S b) i w))))).
    { intros pr Hpr. apply Lim_seq_correct'. apply ex_lim_seq_cauchy_corr. intros eps. destruct (currents_agree w a (eps / 2) AL) as [N HNN]; [destruct eps; cbn; lra|]. exists N. intros n m Hn Hm. eapply Rle_lt_trans; [apply Hpr|]. specialize (HNN n m _ _ Hn Hm (SOL n) (SOL m) i Hi). pose proof (cond_pos eps). lra. }
    split; [apply (CA fst)|apply (CA snd)]; intros x y; destruct (part_le (x - y)%C) as [P1 P2]; [exact P1|exact P2]. }
  intros eps E0. destruct (currents_agree w a (eps / 2) AL) as [N HNN]; [lra|]. exists N. intros b s Hb Sb i Hi.
  destruct (LIM i Hi) as [L1 L2]. apply is_lim_seq_spec in L1. apply is_lim_seq_spec in L2. assert (E4 : 0 < eps / 4) by lra. destruct (L1 (mkposreal _ E4)) as [N1 H1]. destruct (L2 (mkposreal _ E4)) as [N2 H2]. set (m := (N + N1 + N2)%nat).
  specialize (H1 m ltac:(unfold m; lia)). specialize (H2 m ltac:(unfold m; lia)). cbn [pos] in H1, H2. specialize (HNN b m s (S m) Hb ltac:(unfold m; lia) Sb (SOL m) i Hi).
  replace (cur b s i w - I i)%C with ((cur b s i w - cur m (S m) i w) + (cur m (S m) i w - I i))%C by ring. eapply Rle_trans; [apply Cmod_triangle|].
  assert (P : Cmod (cur m (S m) i w - I i)%C <= Rabs (fst (cur m (S m) i w) - fst (I i)) + Rabs (snd (cur m (S m) i w) - snd (I i))) by exact (cmod_parts (cur m (S m) i w - I i)%C). lra.
Qed.
(** Voltages that leave a small imbalance. *)
Lemma nearly_balanced w a eps : alone q w a -> 0 < eps -> exists delta, 0 < delta /\ forall b s v stop i, solution besselJ c resp (NbInt b) s -> (i < q_npts q)%nat -> stop <= delta ->
  imbalance besselJ c resp (NbInt b) v i <= stop * total q (fun f p => Cmod (v f p i)) -> Cmod (cur b v i w - cur b s i w)%C <= eps.
Proof.
  intros AL E0. destruct (lowest c M HP P0 HZ) as (nu & N0 & HZ' & HN). pose proof (kk_range c M nu P0 N0 HZ') as K. set (kk := 4 * M * impedances c / nu) in *. assert (W0 := sizes_nonneg).
  set (B := 8 * (M + 1) * (sizes + 1)). assert (B0 : 0 < B) by (apply Rmult_lt_0_compat; lra). set (d1 := (1 - kk) * nu * eps / B). assert (D1 : 0 < d1) by (apply Rdiv_lt_0_compat; [|assumption]; repeat apply Rmult_lt_0_compat; lra).
  exists (Rmin ((1 - kk) / 2) d1). split; [apply Rmin_glb_lt; lra|]. intros b s v stop i SOL Hi ST IM.
  assert (ST1 := Rle_trans _ _ _ ST (Rmin_l _ _)). assert (ST2 := Rle_trans _ _ _ ST (Rmin_r _ _)).
  pose proof (near_solution besselJ c resp (NbInt b) kk (many_follows c resp (NbInt b) M (A b) HP HT (fun i x _ _ => HR x) P0 nu N0 HN) v s i Hi K SOL) as D.
  assert (SZ := total_size b s i SOL Hi). set (Sz := total q (fun f p => Cmod (s f p i))) in *. set (V := total q (fun f p => Cmod (v f p i))) in *. set (Di := distance q v s i) in *.
  assert (V0 : 0 <= V). { unfold V. rewrite (many_total c HP). generalize (q_num_f q). induction n as [|n IH]; cbn [rsum_to]; [lra|]. pose proof (Cmod_ge_0 (v (S n) 1%nat i)). lra. }
  assert (D0 : 0 <= Di). { unfold Di, distance. rewrite (many_total c HP). generalize (q_num_f q). induction n as [|n IH]; cbn [rsum_to]; [lra|]. pose proof (Cmod_ge_0 (v (S n) 1%nat i - s (S n) 1%nat i)%C). lra. }
  assert (TV : V <= Sz + Di).
  { unfold V, Sz, Di, distance. rewrite !(many_total c HP). generalize (q_num_f q). induction n as [|n IH]; cbn [rsum_to]; [lra|]. assert (T := Cmod_triangle (s (S n) 1%nat i) (v (S n) 1%nat i - s (S n) 1%nat i)%C). replace (s (S n) 1%nat i + (v (S n) 1%nat i - s (S n) 1%nat i))%C with (v (S n) 1%nat i) in T by ring. lra. }
  set (de := Rmin ((1 - kk) / 2) d1) in *. assert (de0 : 0 < de) by (apply Rmin_glb_lt; lra). assert (de1 : de <= (1 - kk) / 2) by apply Rmin_l. assert (de2 : de <= d1) by apply Rmin_r.
  assert (H1 : (1 - kk) * Di <= de * (Sz + Di)). { eapply Rle_trans; [exact D|]. eapply Rle_trans; [exact IM|]. apply Rle_trans with (de * V); [now apply Rmult_le_compat_r|apply Rmult_le_compat_l; lra]. }
  assert (H2 : de * Di <= (1 - kk) / 2 * Di) by now apply Rmult_le_compat_r. assert (H3 : (1 - kk) * Di <= 2 * (de * Sz)) by lra.
  assert (H4 : de * Sz <= d1 * sizes). { apply Rle_trans with (de * sizes); [apply Rmult_le_compat_l; lra|apply Rmult_le_compat_r; lra]. }
  pose proof (cur_lip nu b v s i w a N0 HN AL) as L. fold Di in L. set (X := Cmod (cur b v i w - cur b s i w)%C) in *.
  apply Rmult_le_reg_l with ((1 - kk) * nu); [apply Rmult_lt_0_compat; lra|]. rewrite Rmult_assoc.
  apply Rle_trans with ((1 - kk) * (4 * M * Di)); [apply Rmult_le_compat_l; lra|]. replace ((1 - kk) * (4 * M * Di)) with (4 * M * ((1 - kk) * Di)) by ring.
  apply Rle_trans with (4 * M * (2 * (d1 * sizes))); [apply Rmult_le_compat_l; lra|].
  assert (EB : (1 - kk) * nu * eps = d1 * B) by (unfold d1; field; lra). rewrite EB. replace (4 * M * (2 * (d1 * sizes))) with (d1 * (8 * (M * sizes))) by ring. apply Rmult_le_compat_l; [lra|]. unfold B. assert (0 <= M * sizes) by now apply Rmult_le_pos. replace (8 * (M + 1) * (sizes + 1)) with (8 * (M * sizes) + 8 * M + 8 * sizes + 8) by ring. lra.
Qed.
End Limit.

Theorem simulations_converge c resp M w a : (forall b, args_ok (h_q c) (NbInt b)) -> q_num_p (h_q c) = 1%nat -> separate (h_q c) -> 0 <= M -> (forall x, Cmod (resp x) <= M) ->
  (forall f, (1 <= f <= q_num_f (h_q c))%nat -> 4 * M * impedances c < q_freq (h_q c) f) -> alone (h_q c) w a ->
  exists I : nat -> C, forall eps, 0 < eps -> exists N delta, 0 < delta /\
    forall b stop inv max_it vj0 d zj v it, (N <= b)%nat -> stop <= delta -> simulates c (NbInt b) -> inverts inv -> (0 <= max_it)%Z ->
      r_ret (harmonic_balance besselJ inv c resp (NbInt b) max_it stop vj0 d "x" zj) = Ok (RetX v it true) ->
      everywhere (h_q c) (fun f p i => ~ undefined besselJ (driven c) resp (NbInt b) v f p i) ->
      exists r, qtcurrent besselJ v (h_q c) resp (FList [w]) (NbInt b) None = Ok (QRows [r]) /\ forall i, (i < q_npts (h_q c))%nat -> Cmod (nth i r (RtoC 0) - I i)%C <= eps.
Proof.
  intros A HP HT P0 HR HZ AL. destruct (currents_converge (driven c) resp M A HP HT P0 HR HZ w a AL) as [I HI]. exists I. intros eps E0.
  destruct (HI (eps / 2) ltac:(lra)) as [N HN]. destruct (nearly_balanced (driven c) resp M A HP HT P0 HR HZ w a (eps / 2) AL ltac:(lra)) as (delta & D0 & HD). exists N, delta. split; [assumption|].
  intros b stop inv max_it vj0 d zj v it Hb ST HS INV MI R1 U. destruct (truncations_solved (driven c) resp M A HP HT P0 HR HZ b) as [s SOL].
  rewrite qt_list by apply A. cbn [map]. eexists. split; [reflexivity|]. intros i Hi. unfold spec_row. rewrite nth_tab by assumption.
  pose proof (Proof_HBStable.run_imbalance besselJ inv c resp (NbInt b) max_it stop vj0 d zj v it i HS INV MI R1 U Hi) as IM.
  specialize (HN b s Hb SOL i Hi). specialize (HD b s v stop i SOL Hi ST IM).
  change (current (q_num_p (h_q c)) (tones besselJ v (h_q c) (NbInt b) i) (freqs (h_q c)) (q_vb (h_q c) i) resp w) with (cur (driven c) resp b v i w).
  set (x := cur (driven c) resp b v i w) in *. set (y := cur (driven c) resp b s i w) in *.
  replace (x - I i)%C with ((x - y) + (y - I i))%C by ring. eapply Rle_trans; [apply Cmod_triangle|]. lra.
Qed.
