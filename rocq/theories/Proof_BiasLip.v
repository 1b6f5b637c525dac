(** How much the balance of a circuit of several tones changes along the bias sweep. *)
From Coq Require Import List ZArith Lia Bool Arith Reals Lra String.
From Coquelicot Require Import Coquelicot.
From Verif Require Import Base Sums Round Bessel Model_QtCurrent Spec_QtCurrent Spec_QtApi Spec_Power Proof_QtCurrent Proof_QtCurrent2 Proof_QtSym
  Proof_QtApi Proof_QtApi2 Proof_QtWit Proof_Bessel Proof_Bessel2 Proof_Weights Proof_Power Proof_Power2 Model_Circuit Model_HB Spec_HB Spec_HBConv Proof_HB3 Proof_HBConv Proof_HBConv2 Proof_HBLip Proof_HBLip2 Proof_HBConv3 Proof_Lip1 Spec_LipMany Proof_LipMany Spec_TruncMany Spec_BiasLip.
From Verif Require Proof_HBStable Proof_TruncMany.
Import ListNotations.
Local Notation length := List.length.
Open Scope R_scope.

Lemma rs_minus ts : forall a rk rk', (rs_sum ts a rk - rs_sum ts a rk')%C = rs_sum ts a (fun ks => rk ks - rk' ks)%C.
Proof.
  induction ts as [|t ts IH]; intros [|a0 a] rk rk'; try reflexivity. cbn [rs_sum]. unfold Cminus at 1. rewrite <- csum_opp, <- csum_plus. apply csum_ext. intros k _. rewrite <- IH. ring.
Qed.
Definition swapped (d : drive) : drive := (fst d, (d_w d, d_v d)).
Lemma at_swapped ds : map at_w ds = map at_v (map swapped ds).
Proof. rewrite map_map. reflexivity. Qed.
Lemma many_2 ds a rk M : length a = length ds -> 0 <= M -> (forall ks, in_box (map d_b ds) ks -> Cmod (rk ks) <= M) -> Cmod (rs_sum (map at_w ds) a rk) <= M.
Proof. intros L HM H. rewrite at_swapped. apply many_1; [now rewrite map_length|assumption|]. intros ks K. rewrite map_map in K. now apply H. Qed.
Lemma rs_both ds a rk rk' M D : length a = length ds -> 0 <= M -> 0 <= D -> (forall d, In d ds -> 0 < d_a d) -> (forall ks, in_box (map d_b ds) ks -> Cmod (rk ks) <= M) -> (forall ks, in_box (map d_b ds) ks -> Cmod (rk ks - rk' ks)%C <= D) ->
  Cmod (rs_sum (map at_v ds) a rk - rs_sum (map at_w ds) a rk')%C <= 2 * M * rsum ds d_gap + D.
Proof.
  intros L HM HD HA H H'. assert (P1 := many_lip ds a rk M L HM HA H). assert (P2 := many_2 ds a (fun ks => rk ks - rk' ks)%C D L HD H'). rewrite <- rs_minus in P2.
  set (X := rs_sum (map at_v ds) a rk) in *. set (Y := rs_sum (map at_w ds) a rk) in *. set (Z := rs_sum (map at_w ds) a rk') in *. replace (X - Z)%C with ((X - Y) + (Y - Z))%C by ring. eapply Rle_trans; [apply Cmod_triangle|]. lra.
Qed.
Lemma coeff_both ds a rk rk' M D : length a = length ds -> 0 <= M -> 0 <= D -> (forall d, In d ds -> 0 < d_a d) -> (forall ks, in_box (map d_b ds) ks -> Cmod (rk ks) <= M) -> (forall ks, in_box (map d_b ds) ks -> Cmod (rk ks - rk' ks)%C <= D) ->
  Cmod (coeff (map at_v ds) a rk - coeff (map at_w ds) a rk')%C <= 4 * M * rsum ds d_gap + 2 * D.
Proof.
  intros L HM HD HA H H'. assert (P1 := rs_both ds a rk rk' M D L HM HD HA H H'). assert (P2 := rs_both ds (map Z.opp a) rk rk' M D ltac:(now rewrite map_length) HM HD HA H H').
  destruct (forallb (fun x => x =? 0)%Z a) eqn:E.
  - assert (S : 0 <= M * rsum ds d_gap) by (apply Rmult_le_pos; [assumption|apply rsum_nonneg; intros d Hd; now apply gap_nonneg, HA]). unfold coeff. rewrite E. rewrite <- RtoC_minus, Cmod_R. apply Rle_trans with (2 * M * rsum ds d_gap + D); [|lra]. eapply Rle_trans; [|exact P1]. apply (proj2 (part_le (_ - _)%C)).
  - rewrite !coeff_parts by assumption. set (A := rs_sum (map at_v ds) a rk) in *. set (A' := rs_sum (map at_w ds) a rk') in *. set (B := rs_sum (map at_v ds) (map Z.opp a) rk) in *. set (B' := rs_sum (map at_w ds) (map Z.opp a) rk') in *.
    replace (- Ci * A + Ci * Cconj B - (- Ci * A' + Ci * Cconj B'))%C with (- Ci * (A - A') + Ci * (Cconj B - Cconj B'))%C by ring.
    eapply Rle_trans; [apply Cmod_triangle|]. rewrite conj_minus, !Cmod_mult, Cmod_opp, Ci_mod, conj_mod, !(Rmult_1_l (Cmod _)). lra.
Qed.

(** ** The currents at two bias points *)
Section Points.
Variables (q : qcct) (resp : R -> C) (num_b : numb) (M L : R) (i j : nat).
Hypothesis A : args_ok q num_b.
Hypothesis HP : q_num_p q = 1%nat.
Hypothesis HM : forall x, shifted (q_vb q i) (truncations num_b (q_num_f q)) (freqs q) x -> Cmod (resp x) <= M.
Hypothesis HL : slope_at_most resp L.
Definition turned (v : arr3) : arr3 := fun f p _ => v f p j.
Lemma turned_tones v : tones besselJ (turned v) q num_b i = tones besselJ v q num_b j.
Proof. unfold tones. apply map_ext. intros f. rewrite !tone_of_phase. reflexivity. Qed.
Lemma turned_steps v : photon_steps q v (turned v) i = steps_apart q v i j.
Proof. reflexivity. Qed.
Lemma steps_apart_nonneg v : 0 <= steps_apart q v i j.
Proof. rewrite <- turned_steps. exact (steps_nonneg q num_b i A HP v (turned v)). Qed.
Lemma rise : 0 <= L * Rabs (q_vb q i - q_vb q j).
Proof. eapply Rle_trans; [apply Cmod_ge_0|apply HL]. Qed.
Theorem two_points v w a : alone q w a ->
  Cmod (current (q_num_p q) (tones besselJ v q num_b i) (freqs q) (q_vb q i) resp w - current (q_num_p q) (tones besselJ v q num_b j) (freqs q) (q_vb q j) resp w)%C
  <= 4 * M * steps_apart q v i j + 2 * L * Rabs (q_vb q i - q_vb q j).
Proof.
  intros AL. assert (M0 := many_M q resp num_b M i A HP HM). assert (S0 := steps_apart_nonneg v). assert (R0 := rise). assert (Z0 : 0 <= 4 * M * steps_apart q v i j + 2 * L * Rabs (q_vb q i - q_vb q j)). { assert (0 <= M * steps_apart q v i j) by now apply Rmult_le_pos. lra. }
  destruct (in_dec (list_eq_dec Z.eq_dec) a (index_vectors (q_num_p q) (q_num_f q))) as [IN|NI]; [destruct (Req_EM_T (round4 (dot a (freqs q))) (round4 w)) as [E|NE]|].
  - rewrite !(lone q resp _ _ w a) by (auto using tones_length). rewrite <- turned_tones, (drives_v q num_b i HP v (turned v)), (drives_w q num_b i HP v (turned v)), <- turned_steps, <- (drives_gap q num_b i v (turned v)), Rmult_assoc.
    apply Rle_trans with (4 * M * rsum (drives q num_b i v (turned v)) d_gap + 2 * (L * Rabs (q_vb q i - q_vb q j))); [|lra]. apply coeff_both.
    + rewrite drives_length. now apply index_vectors_length in IN.
    + assumption.
    + assumption.
    + exact (drives_a q num_b i A HP v (turned v)).
    + intros ks K. exact (many_resp q resp num_b M i A HP HM v (turned v) ks K).
    + intros ks K. eapply Rle_trans; [apply HL|]. right. f_equal. f_equal. ring.
  - rewrite !(none q resp _ _ w a) by (try apply tones_length; try assumption; tauto). replace (RtoC 0 - RtoC 0)%C with (RtoC 0) by ring. now rewrite Cmod_0.
  - rewrite !(none q resp _ _ w a) by (try apply tones_length; try assumption; tauto). replace (RtoC 0 - RtoC 0)%C with (RtoC 0) by ring. now rewrite Cmod_0.
Qed.
End Points.
Theorem points_call q resp num_b M L v w a r i j : args_ok q num_b -> q_num_p q = 1%nat -> alone q w a -> (i < q_npts q)%nat -> (j < q_npts q)%nat ->
  (forall x, shifted (q_vb q i) (truncations num_b (q_num_f q)) (freqs q) x -> Cmod (resp x) <= M) -> slope_at_most resp L ->
  qtcurrent besselJ v q resp (FList [w]) num_b None = Ok (QRows [r]) ->
  Cmod (nth i r (RtoC 0) - nth j r (RtoC 0))%C <= 4 * M * steps_apart q v i j + 2 * L * Rabs (q_vb q i - q_vb q j).
Proof.
  intros A P1 AL Hi Hj B HL E. rewrite qt_list in E by assumption. cbn [map] in E. inversion E; subst r. unfold spec_row. rewrite !nth_tab by assumption.
  exact (two_points q resp num_b M L i j A P1 B HL v w a AL).
Qed.

(** ** The balance at two bias points *)
Section Balance.
Variables (c : hcct) (resp : R -> C) (num_b : numb) (M L nu : R).
Local Notation q := (h_q c).
Local Notation kk := (4 * M * impedances c / nu).
Hypothesis A : args_ok q num_b.
Hypothesis HP : q_num_p q = 1%nat.
Hypothesis HT : separate q.
Hypothesis P0 : 0 <= M.
Hypothesis N0 : 0 < nu.
Hypothesis HN : forall f, (1 <= f <= q_num_f q)%nat -> nu <= q_freq q f.
Hypothesis HM : forall i x, (i < q_npts q)%nat -> shifted (q_vb q i) (truncations num_b (q_num_f q)) (freqs q) x -> Cmod (resp x) <= M.
Hypothesis HL : slope_at_most resp L.
Theorem near_points v i j : (i < q_npts q)%nat -> (j < q_npts q)%nat ->
  (1 - kk) * apart q v i j <= imbalance besselJ c resp num_b v i + imbalance besselJ c resp num_b v j + 2 * L * impedances c * Rabs (q_vb q i - q_vb q j).
Proof.
  intros Hi Hj. unfold apart, imbalance. rewrite !(many_total c HP). set (S0 := steps_apart q v i j). set (dv := Rabs (q_vb q i - q_vb q j)).
  assert (D : S0 <= / nu * rsum_to (q_num_f q) (fun f => Cmod (v (S f) 1%nat i - v (S f) 1%nat j)%C)).
  { unfold S0, steps_apart. rewrite <- rsum_to_scal. apply rsum_to_le. intros k K. unfold Rdiv. rewrite (Rmult_comm (/ nu)). apply Rmult_le_compat_l; [apply Cmod_ge_0|]. apply Rinv_le_contravar; [assumption|]. apply HN. lia. }
  set (res := fun i f => Cmod (residual_at besselJ c resp num_b v (S f) 1 i)).
  assert (T : forall f, (f < q_num_f q)%nat -> Cmod (v (S f) 1%nat i - v (S f) 1%nat j)%C <= (res i f + res j f) + (4 * M * S0 + 2 * L * dv) * Cmod (h_zt c (S f) 1%nat)).
  { intros f F. destruct (HT (S f)) as [a AL]; [lia|]. pose proof (two_points q resp num_b M L i j A HP (fun x => HM i x Hi) HL v (q_freq q (S f)) a AL) as T. fold S0 dv in T.
    unfold res, residual_at, current_at. rewrite !many_freq. set (I1 := current _ (tones _ _ _ _ i) _ _ _ _) in *. set (I2 := current _ (tones _ _ _ _ j) _ _ _ _) in *. set (s := h_vt c (S f) 1%nat). set (Z := h_zt c (S f) 1%nat) in *. set (x := v (S f) 1%nat i) in *. set (y := v (S f) 1%nat j) in *.
    replace (x - y)%C with ((- (s - Z * I1 - x) + (s - Z * I2 - y)) + - (Z * (I1 - I2)))%C by ring. eapply Rle_trans; [apply Cmod_triangle|]. apply Rplus_le_compat.
    - eapply Rle_trans; [apply Cmod_triangle|]. rewrite Cmod_opp. apply Rle_refl.
    - rewrite Cmod_opp, Cmod_mult, Rmult_comm. apply Rmult_le_compat_r; [apply Cmod_ge_0|assumption]. }
  apply rsum_to_le in T. assert (PL : forall n f g, rsum_to n (fun k => f k + g k) = rsum_to n f + rsum_to n g) by (induction n as [|n IHn]; intros; cbn [rsum_to]; [ring|rewrite IHn; ring]).
  rewrite (PL _ (fun f => res i f + res j f)), (PL _ (res i)), (rsum_to_scal (q_num_f q) (4 * M * S0 + 2 * L * dv)) in T. fold (impedances c) in T. fold (res i) (res j). set (d := rsum_to (q_num_f q) (fun f => Cmod (v (S f) 1%nat i - v (S f) 1%nat j)%C)) in *.
  assert (Z0 := Proof_TruncMany.imp_nonneg c). assert (Q : 4 * M * impedances c * S0 <= kk * d). { apply Rle_trans with (4 * M * impedances c * (/ nu * d)); [|right; field; lra]. apply Rmult_le_compat_l; [|assumption]. apply Rmult_le_pos; lra. }
  lra.
Qed.
Theorem solution_points s i j : solution besselJ c resp num_b s -> (i < q_npts q)%nat -> (j < q_npts q)%nat -> (1 - kk) * apart q s i j <= 2 * L * impedances c * Rabs (q_vb q i - q_vb q j).
Proof.
  intros S Hi Hj. assert (IM : forall i, (i < q_npts q)%nat -> imbalance besselJ c resp num_b s i = 0).
  { intros n Hn. unfold imbalance. rewrite (many_total c HP). rewrite (rsum_to_ext _ _ (fun f => 0 * 0)); [rewrite (rsum_to_scal _ 0 (fun _ => 0)); ring|]. intros f Hf. assert (SG : signal q (Datatypes.S f) 1) by (split; rewrite ?HP; lia). rewrite (S _ _ n SG Hn), Cmod_0. ring. }
  pose proof (near_points s i j Hi Hj) as H. rewrite !IM in H by assumption. lra.
Qed.
End Balance.
Theorem run_points c resp num_b M L nu inv max_it stop vj0 d zj v it : q_num_p (h_q c) = 1%nat -> separate (h_q c) -> 0 <= M -> 0 < nu -> (forall f, (1 <= f <= q_num_f (h_q c))%nat -> nu <= q_freq (h_q c) f) ->
  (forall i x, (i < q_npts (h_q c))%nat -> shifted (q_vb (h_q c) i) (truncations num_b (q_num_f (h_q c))) (freqs (h_q c)) x -> Cmod (resp x) <= M) -> slope_at_most resp L ->
  simulates c num_b -> inverts inv -> (0 <= max_it)%Z -> r_ret (harmonic_balance besselJ inv c resp num_b max_it stop vj0 d "x" zj) = Ok (RetX v it true) ->
  everywhere (h_q c) (fun f p i => ~ undefined besselJ (driven c) resp num_b v f p i) ->
  forall i j, (i < q_npts (h_q c))%nat -> (j < q_npts (h_q c))%nat ->
  (1 - 4 * M * impedances c / nu) * apart (h_q c) v i j <= stop * (total (h_q c) (fun f p => Cmod (v f p i)) + total (h_q c) (fun f p => Cmod (v f p j))) + 2 * L * impedances c * Rabs (q_vb (h_q c) i - q_vb (h_q c) j).
Proof.
  intros HP HT P0 N0 HN HM HL HS INV MI R1 U i j Hi Hj.
  pose proof (Proof_HBStable.run_imbalance besselJ inv c resp num_b max_it stop vj0 d zj v it i HS INV MI R1 U Hi) as I1. pose proof (Proof_HBStable.run_imbalance besselJ inv c resp num_b max_it stop vj0 d zj v it j HS INV MI R1 U Hj) as I2.
  pose proof (near_points (driven c) resp num_b M L nu (proj1 HS) HP HT P0 N0 HN HM HL v i j Hi Hj) as H. cbn [h_q driven] in H. change (impedances (driven c)) with (impedances c) in H. lra.
Qed.
