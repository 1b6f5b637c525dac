(** When the samples tell the resistance and the reactance of the circuit. *)
From Coq Require Import List ZArith Lia Bool Arith Reals Lra Psatz.
From Coquelicot Require Import Coquelicot.
From Verif Require Import Base Sums Bessel Float NumPy Model_CleanData Model_QtCurrent Spec_QtCurrent Spec_Power Spec_QtApi Proof_QtCurrent Proof_QtWit Proof_Bessel Proof_BesselVal Proof_Weights Proof_Power Proof_Power3 Proof_JacobiAnger
  Proof_Known Model_Tucker Model_ExpData Spec_ExpData Spec_Known Proof_Recover2 Proof_Recover3 Proof_ExpCases Spec_Rise Proof_Rise Proof_Rise2 Spec_Noisy Proof_Noisy.
Import ListNotations.
Open Scope list_scope.
Open Scope R_scope.
Local Notation length := List.length.

Lemma Cmod_sq z : Cmod z ^ 2 = Re z ^ 2 + Im z ^ 2.
Proof. unfold Cmod. rewrite <- Rsqr_pow2, Rsqr_sqrt; [reflexivity|]. nra. Qed.
Lemma balance_sq v (z I : C) : Cmod (Cplus (RtoC v) (Cmult z I)) ^ 2 = v ^ 2 + (2 * v * Re I) * Re z + (- 2 * v * Im I) * Im z + Cmod I ^ 2 * Cmod z ^ 2.
Proof. rewrite !Cmod_sq. unfold RtoC, Cplus, Cmult, Re, Im. cbn [fst snd]. ring. Qed.
Lemma weighted_lin pts : forall c f1 f2 f3 f4 k1 k2 k3 k4, weighted pts c (fun p => f1 p * k1 + f2 p * k2 + f3 p * k3 + f4 p * k4) = weighted pts c f1 * k1 + weighted pts c f2 * k2 + weighted pts c f3 * k3 + weighted pts c f4 * k4.
Proof. unfold weighted. induction pts as [|p pts IH]; intros [|x c] f1 f2 f3 f4 k1 k2 k3 k4; cbn [List.combine map fold_right fst snd]; try ring. rewrite IH. ring. Qed.
Lemma weighted_bound pts : forall c f d, 0 <= d -> (forall p, In p pts -> Rabs (f p) <= d) -> Rabs (weighted pts c f) <= d * size c.
Proof.
  unfold weighted, size. induction pts as [|p pts IH]; intros [|x c] f d D H; cbn [List.combine map fold_right fst snd]; try (rewrite Rabs_R0; lra).
  - rewrite Rabs_R0. apply Rmult_le_pos; [exact D|]. assert (X := Rabs_pos x). assert (S0 : 0 <= fold_right Rplus 0 (map Rabs c)). { clear. induction c as [|y c IH]; cbn; [lra|]. assert (Y := Rabs_pos y). lra. } lra.
  - eapply Rle_trans; [apply Rabs_triang|]. rewrite Rmult_plus_distr_l. apply Rplus_le_compat; [|apply IH; [exact D|intros; apply H; now right]]. rewrite Rabs_mult, Rmult_comm. apply Rmult_le_compat_r; [apply Rabs_pos|apply H; now left].
Qed.
Theorem told pts c tr tx (zs zt : C) Vs V eta F : (forall p, In p pts -> Cmod (Cplus (RtoC (fst p)) (Cmult zs (snd p))) = Vs) ->
  (forall p, In p pts -> let f := Cmod (Cplus (RtoC (fst p)) (Cmult zt (snd p))) in Rabs (f - V) <= eta /\ f <= F) -> pts <> [] -> tells pts c tr tx ->
  Rabs (tr * (Re zt - Re zs) + tx * (Im zt - Im zs)) <= eta * (2 * F + eta) * size c.
Proof.
  intros HS HT NE (T1 & T2 & T3 & T4).
  replace (tr * (Re zt - Re zs) + tx * (Im zt - Im zs)) with (weighted pts c (fun p => (2 * fst p * Re (snd p)) * (Re zt - Re zs) + (- 2 * fst p * Im (snd p)) * (Im zt - Im zs) + Cmod (snd p) ^ 2 * (Cmod zt ^ 2 - Cmod zs ^ 2) + 1 * (Vs ^ 2 - V ^ 2))).
  2: { rewrite weighted_lin, T1, T2, T3, T4. ring. }
  assert (E0 : 0 <= eta /\ 0 <= F). { destruct pts as [|p pts]; [now contradiction NE|]. destruct (HT p (or_introl eq_refl)) as [A B]. split; [eapply Rle_trans; [apply Rabs_pos|exact A]|eapply Rle_trans; [apply Cmod_ge_0|exact B]]. }
  apply weighted_bound; [apply Rmult_le_pos; lra|]. intros p IP. specialize (HS p IP). destruct (HT p IP) as [A B]. set (f := Cmod (Cplus (RtoC (fst p)) (Cmult zt (snd p)))) in *.
  replace (_ + _ + _ + _) with ((f - V) * (f + V)).
  2: { transitivity (f ^ 2 - V ^ 2); [ring|]. rewrite <- HS. unfold f. rewrite !balance_sq. ring. }
  assert (F0 : 0 <= f) by apply Cmod_ge_0. rewrite Rabs_mult. apply Rmult_le_compat; try apply Rabs_pos; [exact A|]. apply Rabs_le_between in A. apply Rabs_le. lra.
Qed.

(** ** The recovered circuit *)
Lemma one_of_mean (l : list (C * C)) zs V e : mismatch l zs V <= e ^ 2 -> 0 <= e -> forall s, In s l -> Rabs (Cmod (fst s) - V * Cmod (Cdiv (snd s) (Cplus zs (snd s)))) <= e * sqrt (INR (length l)).
Proof.
  intros H E s IS. unfold mismatch in H. set (g := fun p : C * C => (Cmod (fst p) - V * Cmod (Cdiv (snd p) (Cplus zs (snd p)))) ^ 2) in *.
  assert (L : 0 < INR (length l)). { destruct l; [destruct IS|]. apply lt_0_INR. cbn. lia. }
  assert (G : g s <= fold_right Rplus 0 (map g l)).
  { clear - IS. assert (G0 : forall p, 0 <= g p) by (intros p; unfold g; apply pow2_ge_0). assert (N : forall m, 0 <= fold_right Rplus 0 (map g m)) by (intros m; induction m as [|p m IH]; [apply Rle_refl|]; cbn [map fold_right]; specialize (G0 p); lra). induction l as [|p l IH]; [destruct IS|]. cbn [map fold_right]. destruct IS as [-> | IS]; [specialize (N l)|specialize (IH IS); specialize (G0 p)]; lra. }
  assert (G2 : g s <= (e * sqrt (INR (length l))) ^ 2). { rewrite Rpow_mult_distr. rewrite <- (Rsqr_pow2 (sqrt _)), Rsqr_sqrt by lra. eapply Rle_trans; [exact G|]. apply (Rmult_le_compat_r (INR (length l))) in H; [|lra]. unfold Rdiv in H. rewrite Rmult_assoc, Rinv_l, Rmult_1_r in H by lra. exact H. }
  unfold g in G2. rewrite <- !Rsqr_pow2 in G2. apply Rsqr_le_abs_0 in G2. rewrite (Rabs_pos_eq (e * _)) in G2; [exact G2|]. apply Rmult_le_pos; [exact E|apply sqrt_pos].
Qed.
Lemma back_to_true idc ikk vph b v M (zt : C) Zm D A a t V rho : 0 < vph -> bounded_steps idc ikk vph b M v -> Cmod zt <= Zm -> Rabs (a - t) <= D -> 0 < a <= A -> 0 < Re (rf_current idc ikk vph b v a) -> 0 < Re zt ->
  Rabs (Cmod (fst (rf_sample idc ikk vph b v a)) - V * Cmod (Cdiv (snd (rf_sample idc ikk vph b v a)) (Cplus zt (snd (rf_sample idc ikk vph b v a))))) <= rho ->
  Rabs (Cmod (Cplus (RtoC (t * vph)) (Cmult zt (rf_current idc ikk vph b v t))) - V) <= rho * (1 + 6 * M * Zm / vph) + (vph + 6 * M * Zm) * D.
Proof.
  intros P BS HZ NR HA W RZ H. assert (M0 : 0 <= M). { eapply Rle_trans; [apply Rabs_pos|]. apply (proj1 (BS 0%Z ltac:(lia))). } assert (Z0 := Cmod_ge_0 zt).
  assert (BN := balance_near idc ikk vph b v M zt zt 0 D A a t _ P BS ltac:(replace (Cminus zt zt) with (RtoC 0) by ring; rewrite Cmod_0; lra) NR HA eq_refl). rewrite Rmult_0_r, Rplus_0_r in BN.
  unfold rf_sample in H. cbn [fst snd] in H. set (w := rf_current idc ikk vph b v a) in *. set (f := Cplus (RtoC (a * vph)) (Cmult zt w)) in *. set (f0 := Cplus (RtoC (t * vph)) _) in *.
  assert (AV : 0 < a * vph) by (apply Rmult_lt_0_compat; lra). assert (WN : w <> RtoC 0) by now apply nz_re.
  assert (W1 : Cmod w <= 6 * M * a). { assert (S1 := rf_smooth idc ikk vph b v M a 0 BS). rewrite (rf_is idc ikk vph b v 0), ac_undriven in S1 by (intros [|n] K; [lia|apply besselJ_S_0]). fold w in S1. replace (Cminus w (RtoC 0)) with w in S1 by ring. rewrite Rminus_0_r, (Rabs_pos_eq a) in S1 by lra. exact S1. }
  assert (FN : f <> RtoC 0).
  { intros E. assert (Q := re_quotient (a * vph) w AV W). assert (X : Cplus zt (Cdiv (RtoC (a * vph)) w) = RtoC 0) by (transitivity (Cdiv f w); [unfold f; field; exact WN|rewrite E; field; exact WN]).
    assert (Y : Re (Cplus zt (Cdiv (RtoC (a * vph)) w)) = 0) by (rewrite X; reflexivity). unfold Re, Cplus in *. cbn [fst] in Y. set (u := Cdiv _ _) in *. lra. }
  rewrite divided in H by (assumption || (apply Rgt_not_eq; exact AV)). fold f in H. rewrite Cmod_div, Cmod_R, (Rabs_pos_eq (a * vph)) in H by (assumption || lra). assert (FP : 0 < Cmod f) by now apply Cmod_gt_0.
  replace (a * vph - V * (a * vph / Cmod f)) with ((Cmod f - V) * ((a * vph) / Cmod f)) in H by (field; lra). assert (Q0 : 0 < a * vph / Cmod f) by (apply Rdiv_lt_0_compat; assumption). rewrite Rabs_mult, (Rabs_pos_eq (a * vph / Cmod f)) in H by lra.
  assert (RHO : 0 <= rho). { eapply Rle_trans; [|exact H]. apply Rmult_le_pos; [apply Rabs_pos|lra]. }
  assert (FB : Cmod f <= a * vph * (1 + 6 * M * Zm / vph)).
  { unfold f. eapply Rle_trans; [apply Cmod_triangle|]. rewrite Cmod_R, Cmod_mult, (Rabs_pos_eq (a * vph)) by lra. replace (a * vph * (1 + 6 * M * Zm / vph)) with (a * vph + Zm * (6 * M * a)) by (field; lra). apply Rplus_le_compat_l. apply Rmult_le_compat; try assumption. apply Cmod_ge_0. }
  assert (H2 : Rabs (Cmod f - V) <= rho * (1 + 6 * M * Zm / vph)).
  { apply Rmult_le_reg_r with (a * vph / Cmod f); [exact Q0|]. eapply Rle_trans; [exact H|]. replace (rho * (1 + 6 * M * Zm / vph) * (a * vph / Cmod f)) with (rho * ((a * vph * (1 + 6 * M * Zm / vph)) / Cmod f)) by (field; split; lra). rewrite <- (Rmult_1_r rho) at 1. apply Rmult_le_compat_l; [exact RHO|]. apply Rle_div_r; [exact FP|]. lra. }
  replace (Cmod f0 - V) with ((Cmod f0 - Cmod f) + (Cmod f - V)) by ring. eapply Rle_trans; [apply Rabs_triang|]. rewrite Rplus_comm. apply Rplus_le_compat; [exact H2|]. rewrite Rabs_minus_sym. eapply Rle_trans; [exact BN|].
  assert (D0 : 0 <= D) by (eapply Rle_trans; [apply Rabs_pos|exact NR]). apply Rmult_le_compat_r; [exact D0|]. apply Rplus_le_compat_l. apply Rmult_le_compat_l; lra.
Qed.
Theorem identified idc ikk voltage current vph q lo hi zs Vs M d g a0 ts Zm c tr tx :
  length voltage = length current -> range_used q lo hi -> r_zemb q = None ->
  0 < vph -> 0 < r_alpha_max q <= 3 / 2 -> (1 <= r_num_b q)%nat -> 0 < fst (r_remb q) -> in_range (r_remb q) (r_xemb q) zs -> (forall x y, x <= y -> idc x <= idc y) -> 0 < g -> 0 < a0 ->
  let B := step_samples vph lo hi voltage current in
  let A := r_alpha_max q in
  let D := level_error A d g a0 in
  let K := (vph + 6 * M * Cmod zs) * D + 6 * M * A * half_cell (r_remb q) (r_xemb q) in
  let e := A * vph * K / (Vs - K) in
  B <> [] -> K < Vs -> length ts = length B -> (forall k, (k < length B)%nat -> sample_about idc ikk vph (r_num_b q) zs Vs M A D d g a0 (fst (nth k B (0, 0))) (snd (nth k B (0, 0))) (nth k ts 0)) ->
  (forall z, in_range (r_remb q) (r_xemb q) z -> Cmod z <= Zm) ->
  tells (map (fun p => (snd p * vph, rf_current idc ikk vph (r_num_b q) (fst (fst p)) (snd p))) (List.combine B ts)) c tr tx ->
  exists r, recover_zemb besselJ idc ikk voltage current vph q = Ok r /\
    let eta := e * sqrt (INR (length B)) * (1 + 6 * M * Zm / vph) + (vph + 6 * M * Zm) * D in
    Rabs (tr * (Re (rec_zt r) - Re zs) + tx * (Im (rec_zt r) - Im zs)) <= eta * (2 * (A * (vph + 6 * M * Zm)) + eta) * size c.
Proof.
  intros L RU ZN P AM NB R1 IR MI G A0 B A D K e BN KV LT HS ZM TL.
  destruct (noisy_at idc ikk voltage current vph q lo hi zs Vs M d g a0 ts L RU ZN P AM NB R1 IR MI G A0 BN KV LT HS) as (r & al & V & E & LA & HA & (i & j & I1 & J1 & EZ) & EV & MM & _).
  exists r. split; [exact E|]. intros eta. fold B A D K e in LA, HA, MM.
  assert (R2 : fst (r_remb q) <= snd (r_remb q)) by (destruct IR as [[? ?] _]; lra). assert (X2 : fst (r_xemb q) <= snd (r_xemb q)) by (destruct IR as [_ [? ?]]; lra).
  assert (IN : in_range (r_remb q) (r_xemb q) (rec_zt r)).
  { rewrite EZ. unfold in_range, grid_point, Re, Im. cbn [fst snd]. assert (N1 : 0 <= INR i <= 100) by (split; [apply pos_INR|rewrite <- INR_100; now apply le_INR]). assert (N2 : 0 <= INR j <= 200) by (split; [apply pos_INR|rewrite <- INR_200; now apply le_INR]).
    set (R0 := snd (r_remb q) - fst (r_remb q)). assert (0 <= R0) by (unfold R0; lra). set (X0 := snd (r_xemb q) - fst (r_xemb q)). assert (0 <= X0) by (unfold X0; lra). assert (0 <= INR i * (R0 / 100) <= R0) by nra. assert (0 <= INR j * (X0 / 200) <= X0) by nra. unfold R0, X0 in *. lra. }
  assert (HZ := ZM _ IN). assert (RZ : 0 < Re (rec_zt r)) by (destruct IN as [[? ?] _]; lra).
  assert (K0 : 0 <= K /\ 0 <= M).
  { destruct B as [|b0 B']; [now contradiction BN|]. destruct (HS 0%nat ltac:(cbn; lia)) as (_ & _ & BS & _ & HD & HI & _). assert (M0 : 0 <= M). { eapply Rle_trans; [apply Rabs_pos|]. apply (proj1 (BS 0%Z ltac:(lia))). } split; [|exact M0].
    assert (d0 : 0 <= d) by (eapply Rle_trans; [apply Rabs_pos|exact HI]). assert (D0 : 0 <= D). { unfold D, level_error. assert (0 <= A / 2 ^ 16) by (left; apply Rdiv_lt_0_compat; [apply AM|apply pow_lt; lra]). assert (0 <= 14 * d / (g * a0)); [|lra]. apply Rmult_le_pos; [lra|]. left. apply Rinv_0_lt_compat, Rmult_lt_0_compat; assumption. }
    assert (H0 : 0 <= half_cell (r_remb q) (r_xemb q)) by (unfold half_cell; lra). assert (Z0 := Cmod_ge_0 zs). unfold K. apply Rplus_le_le_0_compat; [apply Rmult_le_pos; [|exact D0]; assert (0 <= 6 * M * Cmod zs) by (apply Rmult_le_pos; lra); lra|]. apply Rmult_le_pos; [|exact H0]. apply Rmult_le_pos; [lra|unfold A; lra]. }
  destruct K0 as [K0 M0]. assert (e0 : 0 <= e). { unfold e. apply Rmult_le_pos; [apply Rmult_le_pos; [apply Rmult_le_pos; [unfold A; lra|lra]|exact K0]|left; apply Rinv_0_lt_compat; lra]. }
  eapply told; [| | |exact TL].
  - intros p IP. apply in_map_iff in IP as (s & <- & IP). destruct (in_combine_nth B ts (0, 0) 0 s (eq_sym LT) IP) as (k & KL & ->). cbn [fst snd]. destruct (HS k KL) as (_ & _ & _ & _ & _ & _ & DR). exact DR.
  - intros p IP. apply in_map_iff in IP as (s & <- & IP). destruct (in_combine_nth B ts (0, 0) 0 s (eq_sym LT) IP) as (k & KL & ->). cbn [fst snd]. destruct (HS k KL) as (F & _ & BS & HA0 & HD & _ & _). destruct (HA k KL) as [RG NR].
    assert (W : 0 < Re (rf_current idc ikk vph (r_num_b q) (fst (nth k B (0, 0))) (nth k al 0))) by (apply rf_absorbs; [exact P|exact MI|exact NB|exact (first_slope _ _ _ _ P MI F)|unfold A in RG; lra]).
    split.
    + eapply back_to_true; [exact P|exact BS|exact HZ|exact NR|exact RG|exact W|exact RZ|].
      assert (OM := one_of_mean _ _ _ _ MM e0). assert (LL : length (map (fun p => rf_sample idc ikk vph (r_num_b q) (fst (fst p)) (snd p)) (List.combine B al)) = length B) by (rewrite map_length, combine_length, LA; apply Nat.min_id). rewrite LL in OM. apply OM.
      apply in_map_iff. exists (nth k B (0, 0), nth k al 0). split; [reflexivity|]. rewrite <- combine_nth by (symmetry; exact LA). apply nth_In. rewrite combine_length, LA, Nat.min_id. exact KL.
    + eapply Rle_trans; [apply Cmod_triangle|]. set (t := nth k ts 0) in *. assert (D0 : 0 <= D) by (eapply Rle_trans; [apply Rabs_pos|exact NR]). assert (T0 : 0 <= t <= A) by lra. rewrite Cmod_R, Cmod_mult, (Rabs_pos_eq (t * vph)) by (apply Rmult_le_pos; lra).
      assert (S1 := rf_smooth idc ikk vph (r_num_b q) (fst (nth k B (0, 0))) M t 0 BS). rewrite (rf_is idc ikk vph (r_num_b q) _ 0), ac_undriven in S1 by (intros [|n] KK; [lia|apply besselJ_S_0]). set (w := rf_current _ _ _ _ _ t) in *. replace (Cminus w (RtoC 0)) with w in S1 by ring. rewrite Rminus_0_r, (Rabs_pos_eq t) in S1 by lra.
      rewrite Rmult_plus_distr_l. apply Rplus_le_compat; [apply Rmult_le_compat_r; lra|]. replace (A * (6 * M * Zm)) with (Zm * (6 * M * A)) by ring. apply Rmult_le_compat; [apply Cmod_ge_0|apply Cmod_ge_0|exact HZ|]. eapply Rle_trans; [exact S1|]. apply Rmult_le_compat_l; lra.
  - destruct B as [|b0 B']; [now contradiction BN|]. destruct ts as [|t0 ts']; [discriminate LT|]. discriminate.
Qed.
Theorem unique pts c c' (zs zt : C) Vs V : (forall p, In p pts -> Cmod (Cplus (RtoC (fst p)) (Cmult zs (snd p))) = Vs) -> (forall p, In p pts -> Cmod (Cplus (RtoC (fst p)) (Cmult zt (snd p))) = V) ->
  pts <> [] -> tells pts c 1 0 -> tells pts c' 0 1 -> zt = zs.
Proof.
  intros HS HT NE T T'. assert (B : forall p, In p pts -> let f := Cmod (Cplus (RtoC (fst p)) (Cmult zt (snd p))) in Rabs (f - V) <= 0 /\ f <= V) by (intros p IP; cbv zeta; rewrite (HT p IP), Rminus_eq_0, Rabs_R0; lra).
  assert (X := told pts c 1 0 zs zt Vs V 0 V HS B NE T). assert (Y := told pts c' 0 1 zs zt Vs V 0 V HS B NE T'). rewrite !Rmult_0_l in X, Y.
  destruct zt as [r x], zs as [r' x']. unfold Re, Im in *. cbn [fst snd] in *. apply Rabs_le_between in X. apply Rabs_le_between in Y. f_equal; lra.
Qed.
