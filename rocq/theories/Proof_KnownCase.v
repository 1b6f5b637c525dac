(** A junction measured with a circuit on the grid. *)
From Coq Require Import List ZArith Lia Bool Arith Reals Lra Psatz.
From Coquelicot Require Import Coquelicot.
From Verif Require Import Base Sums Bessel Float NumPy Model_CleanData Model_QtCurrent Spec_QtCurrent Proof_QtCurrent Proof_QtWit Proof_Bessel Proof_Bessel2 Proof_BesselVal Proof_Weights Proof_Power3 Proof_Small
  Model_Tucker Model_ExpData Spec_ExpData Spec_Known Proof_Recover Proof_Recover2 Proof_Recover3 Proof_Known.
Import ListNotations.
Open Scope R_scope.
Local Notation length := List.length.
Local Notation JZ := (besselZ besselJ).

Lemma J1_mono x y : 0 <= x -> x < y -> y <= 1 -> besselJ 1 x < besselJ 1 y.
Proof.
  intros X XY Y. destruct (MVT_gen (besselJ 1) x y (fun z => (besselJ 0 z - besselJ 2 z) / 2)) as [c [Hc E]].
  { intros z _. apply (J_derive 0). } { intros z _. apply continuity_pt_filterlim, (ex_derive_continuous (besselJ 1) z). eexists. apply (J_derive 0). }
  rewrite Rmin_left, Rmax_right in Hc by lra. assert (U : 0 <= (c / 2) ^ 2 <= 1 / 4) by nra. assert (A := P0_near _ U). assert (B := P2_near _ U). apply Rabs_le_between in A. apply Rabs_le_between in B.
  assert (G : 0 < besselJ 0 c - besselJ 2 c). { rewrite !J_P. set (u := (c / 2) ^ 2) in *. rewrite pow_O. nra. }
  nra.
Qed.
Lemma J1_0 : besselJ 1 0 = 0. Proof. rewrite J_P, pow_1. lra. Qed.
Lemma J1_nonneg x : 0 <= x <= 1 -> 0 <= besselJ 1 x.
Proof. intros X. destruct (Req_dec x 0) as [->|N]; [rewrite J1_0; lra|]. left. rewrite <- J1_0. apply J1_mono; lra. Qed.
Lemma J1sq_mono x y : 0 <= x -> x < y -> y <= 1 -> besselJ 1 x ^ 2 < besselJ 1 y ^ 2.
Proof. intros X XY Y. assert (H := J1_mono x y X XY Y). assert (N := J1_nonneg x ltac:(lra)). nra. Qed.
Definition jh : R := besselJ 1 (1 / 2) ^ 2.
Definition jq : R := besselJ 1 (1 / 4) ^ 2.
Lemma jh_near : 56 / 1000 <= jh <= 69 / 1000.
Proof. assert (H := J1_sq (1 / 2) ltac:(rewrite Rabs_pos_eq; lra)). apply Rabs_le_between in H. unfold jh. lra. Qed.
Lemma jq_near : 15 / 1000 <= jq <= 161 / 10000.
Proof. assert (H := J1_sq (1 / 4) ltac:(rewrite Rabs_pos_eq; lra)). apply Rabs_le_between in H. unfold jq. lra. Qed.

(** The unpumped curve has two steps; the source is that of both drive levels. *)
Definition kn_vs : R := 1 / 2 + 4 * jh.
Definition kn_g : R := (kn_vs - 1 / 4) / (8 * jq).
Definition kn_idc (w : R) : R := if Rlt_dec w 1 then 0 else if Rlt_dec w (3 / 2) then 1 else kn_g.
Definition kn_ikk (w : R) : R := 0.
Definition kn_v : list R := [4 / 10; 6 / 10].
Definition kn_i : list R := [jh; jq * kn_g].
Definition kn_q : recparams :=
  {| r_fit_range := None; r_cut_low := None; r_cut_high := None; r_remb := (1, 2); r_xemb := (-1, 1); r_zemb := None; r_alpha_max := 1 / 2; r_num_b := 1 |}.
Lemma kn_g_near : 3 <= kn_g <= 5.
Proof.
  assert (A := jh_near). assert (B := jq_near). unfold kn_g, kn_vs. split.
  - apply Rle_div_r; [lra|]. lra.
  - apply Rle_div_l; [lra|]. lra.
Qed.
Lemma kn_mono x y : x <= y -> kn_idc x <= kn_idc y.
Proof. intros H. assert (G := kn_g_near). unfold kn_idc. repeat destruct Rlt_dec; lra. Qed.
Lemma kn_bound w : Rabs (kn_idc w) <= 5.
Proof. assert (G := kn_g_near). unfold kn_idc. apply Rabs_le. repeat destruct Rlt_dec; lra. Qed.
Lemma kn_grid : grid_point (r_remb kn_q) (r_xemb kn_q) 0 100 = RtoC 1.
Proof. unfold grid_point, RtoC. cbn [kn_q r_remb r_xemb fst snd]. replace (INR 100) with 100 by (rewrite INR_IZR_INZ; f_equal; reflexivity). f_equal; [cbn [INR]|]; field. Qed.
Lemma kn_step : step_samples 1 (1 / 4) (8 / 10) kn_v kn_i = [(4 / 10, jh); (6 / 10, jq * kn_g)].
Proof. unfold step_samples, kn_v, kn_i. cbn [List.combine filter fst]. repeat destruct Rle_dec; try lra; reflexivity. Qed.
Lemma kn_dc v g x : 0 < v < 1 -> kn_idc (v + 1) = g -> pumped_iv besselJ kn_idc 1 x 1 v = besselJ 1 x ^ 2 * g.
Proof.
  intros V E. rewrite pumped_sum, rsum_sym_S, rsum_sym_0. replace (Z.of_nat 1) with 1%Z by reflexivity. change (- (1))%Z with (-1)%Z. replace (v + 1 * 1) with (v + 1) by ring. rewrite E. replace (kn_idc (v + 0 * 1)) with 0 by (unfold kn_idc; destruct Rlt_dec; [reflexivity|lra]). replace (kn_idc (v + -1 * 1)) with 0 by (unfold kn_idc; destruct Rlt_dec; [reflexivity|lra]). rewrite JZ_1. ring.
Qed.
Lemma kn_ac v g x : 0 < v < 1 -> kn_idc (v + 1) = g -> x <> 0 -> ac_current besselJ kn_idc kn_ikk 1 x 1 v = RtoC (2 * besselJ 1 x ^ 2 * g / x).
Proof.
  intros V E X. rewrite ac_current_sums, !rsum_sym_S, !rsum_sym_0. replace (Z.of_nat 1) with 1%Z by reflexivity. change (- (1))%Z with (-1)%Z. replace (v + 1 * 1) with (v + 1) by ring. rewrite E. replace (kn_idc (v + 0 * 1)) with 0 by (unfold kn_idc; destruct Rlt_dec; [reflexivity|lra]). replace (kn_idc (v + -1 * 1)) with 0 by (unfold kn_idc; destruct Rlt_dec; [reflexivity|lra]).
  assert (R := J_recZ 1 x). unfold kn_ikk, RtoC. f_equal; [|ring]. apply Rmult_eq_reg_l with x; [|assumption]. set (p := JZ (1 - 1) x + JZ (1 + 1) x) in *. change (JZ 1 x) with (besselJ 1 x) in *.
  transitivity (besselJ 1 x * g * (x * p)); [ring|]. rewrite R. field. assumption.
Qed.
Lemma kn_balance v g a : 0 < v < 1 -> kn_idc (v + 1) = g -> 0 < a -> 0 <= g -> a + 2 * besselJ 1 a ^ 2 * g / a = kn_vs -> driven_to kn_idc kn_ikk 1 1 (RtoC 1) kn_vs v a.
Proof.
  intros V E A G F. unfold driven_to. rewrite rf_is, (kn_ac v g a V E) by lra. rewrite <- RtoC_mult, <- RtoC_plus, Cmod_R. rewrite Rabs_pos_eq; [lra|]. rewrite Rmult_1_l, Rmult_1_r, F. unfold kn_vs. pose proof jh_near. lra.
Qed.
Lemma kn_findable v g a : 0 < v < 1 -> kn_idc (v + 1) = g -> 0 < g -> a = 1 / 4 \/ a = 1 / 2 -> findable kn_idc 1 1 (1 / 2) v (besselJ 1 a ^ 2 * g) a.
Proof.
  intros V E G A. unfold findable. split; [rewrite dc_is; now apply kn_dc|]. split.
  - intros x y X XY Y. rewrite !dc_is, !(kn_dc v g _ V E). apply Rmult_lt_compat_r; [assumption|]. apply J1sq_mono; destruct A; lra.
  - rewrite dc_is, (kn_dc v g _ V E). replace (kn_idc v) with 0 by (unfold kn_idc; destruct Rlt_dec; [reflexivity|lra]). fold jh. assert (H := jh_near).
    replace ((besselJ 1 a ^ 2 * g - 0) / (jh * g - 0) * (1 / 2)) with (besselJ 1 a ^ 2 / jh * (1 / 2)) by (field; lra).
    assert (Q : 0 <= besselJ 1 a ^ 2 / jh) by (apply Rdiv_le_0_compat; [apply pow2_ge_0|lra]).
    assert (Q' : besselJ 1 a ^ 2 / jh <= 1). { apply Rle_div_l; [lra|]. rewrite Rmult_1_l. destruct A as [-> | ->]; [|apply Rle_refl]. left. unfold jh. apply J1sq_mono; lra. }
    rewrite Rmax_right by lra. apply Rabs_le. destruct A as [-> | ->]; [lra|]. fold jh. replace (jh / jh) with 1 by (field; lra). lra.
Qed.

Lemma kn_at1 : kn_idc (4 / 10 + 1) = 1. Proof. unfold kn_idc. repeat destruct Rlt_dec; lra. Qed.
Lemma kn_at2 : kn_idc (6 / 10 + 1) = kn_g. Proof. unfold kn_idc. repeat destruct Rlt_dec; lra. Qed.
Lemma kn_below v : v < 1 -> kn_idc v = 0. Proof. intros H. unfold kn_idc. destruct Rlt_dec; lra. Qed.
Lemma kn_samples v i : In (v, i) (step_samples 1 (1 / 4) (8 / 10) kn_v kn_i) -> kn_idc (v - 1) < kn_idc (v + 1) /\ bounded_steps kn_idc kn_ikk 1 1 5 v /\
  exists a, 1 / 4 <= a <= 1 / 2 /\ findable kn_idc 1 1 (1 / 2) v i a /\ driven_to kn_idc kn_ikk 1 1 (RtoC 1) kn_vs v a.
Proof.
  rewrite kn_step. assert (G := kn_g_near). assert (BS : forall v, bounded_steps kn_idc kn_ikk 1 1 5 v). { intros w n _. split; [apply kn_bound|]. unfold kn_ikk. rewrite Rabs_R0. lra. }
  intros [E|[E|[]]]; injection E as <- <-.
  - rewrite kn_at1, kn_below by lra. split; [lra|]. split; [apply BS|]. exists (1 / 2). split; [lra|]. split.
    + rewrite <- (Rmult_1_r jh). apply (kn_findable (4 / 10) 1); [lra|apply kn_at1|lra|now right].
    + apply (kn_balance (4 / 10) 1); [lra|apply kn_at1|lra|lra|]. fold jh. unfold kn_vs. field.
  - rewrite kn_at2, kn_below by lra. split; [lra|]. split; [apply BS|]. exists (1 / 4). split; [lra|]. split.
    + apply (kn_findable (6 / 10) kn_g); [lra|apply kn_at2|lra|now left].
    + apply (kn_balance (6 / 10) kn_g); [lra|apply kn_at2|lra|lra|]. fold jq. assert (Q := jq_near). unfold kn_g. field. lra.
Qed.
Lemma kn_runs : exists r, recover_zemb besselJ kn_idc kn_ikk kn_v kn_i 1 kn_q = Ok r.
Proof.
  apply (recover_total besselJ kn_idc kn_ikk kn_v kn_i 1 kn_q (1 / 4) (8 / 10)); [reflexivity|right; repeat split|rewrite kn_step; discriminate|].
  rewrite kn_step. assert (G := kn_g_near). assert (Q := jh_near). intros p [<-|[<-|[]]]; cbn [fst kn_q r_alpha_max r_num_b].
  - rewrite (kn_dc _ 1) by (lra || apply kn_at1). fold jh. rewrite (kn_below (4 / 10)) by lra. lra.
  - rewrite (kn_dc _ kn_g) by (lra || apply kn_at2). fold jh. rewrite (kn_below (6 / 10)) by lra. nra.
Qed.

(** One sample does not determine the circuit. *)
Definition kn_v1 : list R := [4 / 10].
Definition kn_i1 : list R := [jh].
Lemma kn_step1 : step_samples 1 (1 / 4) (8 / 10) kn_v1 kn_i1 = [(4 / 10, jh)].
Proof. unfold step_samples, kn_v1, kn_i1. cbn [List.combine filter fst]. repeat destruct Rle_dec; try lra; reflexivity. Qed.
Lemma kn_runs1 : exists r, recover_zemb besselJ kn_idc kn_ikk kn_v1 kn_i1 1 kn_q = Ok r.
Proof.
  apply (recover_total besselJ kn_idc kn_ikk kn_v1 kn_i1 1 kn_q (1 / 4) (8 / 10)); [reflexivity|right; repeat split|rewrite kn_step1; discriminate|].
  rewrite kn_step1. assert (Q := jh_near). intros p [<-|[]]; cbn [fst kn_q r_alpha_max r_num_b].
  rewrite (kn_dc _ 1) by (lra || apply kn_at1). fold jh. rewrite (kn_below (4 / 10)) by lra. lra.
Qed.
Lemma kn_grid2 : grid_point (r_remb kn_q) (r_xemb kn_q) 100 100 = RtoC 2.
Proof. unfold grid_point, RtoC. cbn [kn_q r_remb r_xemb fst snd]. replace (INR 100) with 100 by (rewrite INR_IZR_INZ; f_equal; reflexivity). f_equal; field. Qed.
Lemma kn_one z : 0 <= z -> measured_with kn_idc kn_ikk 1 kn_q [(4 / 10, jh)] (RtoC z) (1 / 2 + 4 * z * jh) 5 1 (1 / 2 / 2 ^ 16).
Proof.
  intros Z v i [E|[]]. injection E as <- <-. cbn [kn_q r_num_b r_alpha_max]. rewrite kn_at1, kn_below by lra. split; [lra|]. split. { intros n _. split; [apply kn_bound|]. unfold kn_ikk. rewrite Rabs_R0. lra. }
  assert (D : 0 < 1 / 2 / 2 ^ 16 <= 1 / 4) by (cbn [pow]; lra). exists (1 / 2). split; [lra|]. split.
  - rewrite <- (Rmult_1_r jh). apply (kn_findable (4 / 10) 1); [lra|apply kn_at1|lra|now right].
  - unfold driven_to. rewrite rf_is, (kn_ac (4 / 10) 1) by (lra || apply kn_at1). rewrite <- RtoC_mult, <- RtoC_plus, Cmod_R. fold jh. assert (Q := jh_near). replace (1 / 2 * 1 + z * (2 * jh * 1 / (1 / 2))) with (1 / 2 + 4 * z * jh) by field. apply Rabs_pos_eq. nra.
Qed.
