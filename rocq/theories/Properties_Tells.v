(** Property C164: when the recovered circuit is the circuit of the measurement.

    The vocabulary is in Spec_Noisy.v, Spec_Rise.v, Spec_Known.v and Spec_ExpData.v.
    [recover_zemb] is the model of the recovery (Model_ExpData.v), here with the Bessel functions
    of Bessel.v. *)
From Coq Require Import List ZArith Lia Bool Reals Lra Psatz.
From Coquelicot Require Import Complex.
From Verif Require Import Base Bessel Float Model_Tucker Model_ExpData Spec_ExpData Spec_Known Spec_Rise Spec_Noisy Proof_Tells Proof_Tells2.
Import ListNotations.
Open Scope R_scope.
Local Notation length := List.length.

(** ** C164 *)
(** Samples that tell a combination of the resistance and the reactance: two circuits that
    both explain them, the second one up to eta, agree on it up to a multiple of eta. *)
Theorem C164_circuits : forall pts c tr tx (zs zt : C) Vs V eta F, (forall p, In p pts -> Cmod (Cplus (RtoC (fst p)) (Cmult zs (snd p))) = Vs) ->
  (forall p, In p pts -> let f := Cmod (Cplus (RtoC (fst p)) (Cmult zt (snd p))) in Rabs (f - V) <= eta /\ f <= F) -> pts <> [] -> tells pts c tr tx ->
  Rabs (tr * (Re zt - Re zs) + tx * (Im zt - Im zs)) <= eta * (2 * F + eta) * size c.
Proof. exact told. Qed.
Print Assumptions C164_circuits.
(** Samples that tell both have only one circuit. *)
Theorem C164_unique : forall pts c c' (zs zt : C) Vs V, (forall p, In p pts -> Cmod (Cplus (RtoC (fst p)) (Cmult zs (snd p))) = Vs) -> (forall p, In p pts -> Cmod (Cplus (RtoC (fst p)) (Cmult zt (snd p))) = V) ->
  pts <> [] -> tells pts c 1 0 -> tells pts c' 0 1 -> zt = zs.
Proof. exact unique. Qed.
Print Assumptions C164_unique.
(** The recovered circuit agrees, up to the errors of the currents, of the search for the drive
    levels and of the grid, with the circuit of the measurement on what the samples tell. *)
Theorem C164_recovers : forall idc ikk voltage current vph q lo hi zs Vs M d g a0 ts Zm c tr tx,
  length voltage = length current -> range_used q lo hi -> r_zemb q = None ->
  0 < vph -> 0 < r_alpha_max q <= 3 / 2 -> (1 <= r_num_b q)%nat -> 0 < fst (r_remb q) -> in_range (r_remb q) (r_xemb q) zs -> (forall x y, x <= y -> idc x <= idc y) -> 0 < g -> 0 < a0 ->
  let B := step_samples vph lo hi voltage current in
  let A := r_alpha_max q in
  let D := level_error A d g a0 in
  let K := (vph + 6 * M * Cmod zs) * D + 6 * M * A * half_cell (r_remb q) (r_xemb q) in
  let e := A * vph * K / (Vs - K) in
  B <> [] -> K < Vs -> length ts = length B -> (forall k, (k < length B)%nat -> sample_about idc ikk vph (r_num_b q) zs Vs M A D d g a0 (fst (nth k B (0, 0))) (snd (nth k B (0, 0))) (nth k ts 0)) ->
  (forall z, in_range (r_remb q) (r_xemb q) z -> Cmod z <= Zm) ->
  tells (map (fun p => (snd p * vph, rf_current idc ikk vph (r_num_b q) (fst (fst p)) (snd p))) (List.combine B ts)) c tr tx ->
  exists r, recover_zemb besselJ idc ikk voltage current vph q = Ok r /\
    let eta := e * sqrt (INR (length B)) * (1 + 6 * M * Zm / vph) + (vph + 6 * M * Zm) * D in
    Rabs (tr * (Re (rec_zt r) - Re zs) + tx * (Im (rec_zt r) - Im zs)) <= eta * (2 * (A * (vph + 6 * M * Zm)) + eta) * size c.
Proof. exact identified. Qed.
Print Assumptions C164_recovers.

(** Three samples tell the resistance, and a fourth one, with a current in quadrature, the
    reactance; all are explained by the circuit 1, 2. *)
Definition three_pts : list (R * C) := [(1, RtoC 1); (9 / 10, RtoC (11 / 10)); (8 / 10, RtoC (12 / 10))].
Definition three_c : list R := [- 115 / 4; 55; - 105 / 4].
Definition four_pts : list (R * C) := three_pts ++ [(12 / 10, (0, 16 / 10))].
Definition four_c : list R := [468 / 384 * 10; - (944 / 384 * 10); 486 / 384 * 10; - (100 / 384)].
Lemma cmod2 x y : Cmod (x, y) ^ 2 = x ^ 2 + y ^ 2.
Proof. rewrite Cmod_sq. reflexivity. Qed.
Lemma three_tells : tells three_pts three_c 1 0.
Proof. unfold tells, weighted, three_pts, three_c, RtoC. cbn [List.combine map fold_right fst snd]. rewrite !cmod2. unfold Re, Im. cbn [fst snd]. repeat split; lra. Qed.
Example C164_four : tells four_pts (three_c ++ [0]) 1 0 /\ tells four_pts four_c 0 1 /\ (forall p, In p four_pts -> Cmod (Cplus (RtoC (fst p)) (Cmult (RtoC 1) (snd p))) = 2).
Proof.
  split; [|split]. 3: { intros p H. assert (E : Cmod (Cplus (RtoC (fst p)) (Cmult (RtoC 1) (snd p))) ^ 2 = 2 ^ 2) by (repeat destruct H as [<- |H]; try destruct H; unfold RtoC, Cplus, Cmult; cbn [fst snd]; rewrite cmod2; lra). assert (G := Cmod_ge_0 (Cplus (RtoC (fst p)) (Cmult (RtoC 1) (snd p)))). rewrite <- !Rsqr_pow2 in E. apply Rsqr_inj in E; lra. }
  all: unfold tells, weighted, four_pts, three_pts, three_c, four_c, RtoC; cbn [List.combine map fold_right fst snd app]; rewrite !cmod2; unfold Re, Im; cbn [fst snd]; repeat split; lra.
Qed.
(** A junction with these three samples, measured with currents that are off by 1/10^6. *)
Definition three_q : recparams :=
  {| r_fit_range := None; r_cut_low := None; r_cut_high := None; r_remb := (1 / 2, 3 / 2); r_xemb := (- 1, 1); r_zemb := None; r_alpha_max := 3 / 2; r_num_b := 4 |}.
Definition three_v : list R := [4 / 10; 5 / 10; 6 / 10].
Definition three_a : list R := [1; 9 / 10; 8 / 10].
Definition three_i : list R := map (fun p => dc_current three_idc 1 4 (fst p) (snd p) + 1 / 10 ^ 6) (List.combine three_v three_a).
Lemma three_samples : step_samples 1 (1 / 4) (8 / 10) three_v three_i = List.combine three_v three_i.
Proof. unfold step_samples, three_i, three_v, three_a. cbn [List.combine filter map fst snd]. repeat destruct Rle_dec; try lra; reflexivity. Qed.
Example C164_case : let D := level_error (3 / 2) (1 / 10 ^ 6) 2 (8 / 10) in
  (forall k, (k < 3)%nat -> sample_about three_idc (fun _ => 0) 1 4 (RtoC 1) 2 4 (3 / 2) D (1 / 10 ^ 6) 2 (8 / 10) (nth k three_v 0) (nth k three_i 0) (nth k three_a 0)) /\
  tells (map (fun p => (snd p * 1, rf_current three_idc (fun _ => 0) 1 4 (fst p) (snd p))) (List.combine three_v three_a)) three_c 1 0 /\
  exists r, recover_zemb besselJ three_idc (fun _ => 0) three_v three_i 1 three_q = Ok r.
Proof.
  intros D. assert (D0 : 0 < D <= 4 / 10 ^ 5) by (unfold D, level_error; cbn [pow]; lra). destruct three_currents as (I1 & I2 & I3).
  assert (SA : forall k, (k < 3)%nat -> sample_about three_idc (fun _ => 0) 1 4 (RtoC 1) 2 4 (3 / 2) D (1 / 10 ^ 6) 2 (8 / 10) (nth k three_v 0) (nth k three_i 0) (nth k three_a 0)).
  { assert (X : forall v a I, 4 / 10 <= v <= 6 / 10 -> 8 / 10 <= a <= 1 -> rf_current three_idc (fun _ => 0) 1 4 v a = RtoC I -> a + I = 2 -> sample_about three_idc (fun _ => 0) 1 4 (RtoC 1) 2 4 (3 / 2) D (1 / 10 ^ 6) 2 (8 / 10) v (dc_current three_idc 1 4 v a + 1 / 10 ^ 6) a).
    { intros v a I Hv Ha E S2. destruct (three_step v Hv) as [F G]. split; [exact F|]. split; [exact G|]. split; [exact (three_bounded v)|]. split; [lra|]. split; [lra|]. split; [match goal with |- Rabs ?x <= _ => replace x with (1 / 10 ^ 6) by ring end; rewrite Rabs_pos_eq; lra|]. unfold driven_to. rewrite E. rewrite Rmult_1_r, <- RtoC_mult, <- RtoC_plus, Rmult_1_l, S2, Cmod_R. apply Rabs_pos_eq. lra. }
    intros [|[|[|k]]] K; [..|lia]; unfold three_v, three_i, three_a; cbn [nth List.combine map fst snd]; [apply X with 1|apply X with (11 / 10)|apply X with (12 / 10)]; cbn [fst snd]; (assumption || lra). }
  split; [exact SA|].
  split; [unfold three_v, three_a; cbn [List.combine map]; cbn [fst snd]; rewrite I1, I2, I3, !Rmult_1_r; exact three_tells|]. assert (CZ : Cmod (RtoC 1) = 1) by (rewrite Cmod_R; apply Rabs_R1).
  destruct (C164_recovers three_idc (fun _ => 0) three_v three_i 1 three_q (1 / 4) (8 / 10) (RtoC 1) 2 4 (1 / 10 ^ 6) 2 (8 / 10) three_a 2 three_c 1 0) as (r & E & _).
  - reflexivity.
  - right. repeat split.
  - reflexivity.
  - lra.
  - cbn [three_q r_alpha_max]. lra.
  - cbn [three_q r_num_b]. lia.
  - cbn [three_q r_remb fst]. lra.
  - unfold in_range, RtoC, Re, Im. cbn [three_q r_remb r_xemb fst snd]. lra.
  - exact three_mono.
  - lra.
  - lra.
  - rewrite three_samples. discriminate.
  - cbn [three_q r_alpha_max r_remb r_xemb]. fold D. rewrite CZ. unfold half_cell. cbn [fst snd]. lra.
  - rewrite three_samples. reflexivity.
  - rewrite three_samples. intros k K. change (length (List.combine three_v three_i)) with 3%nat in K. specialize (SA k K). rewrite combine_nth by reflexivity. exact SA.
  - intros z [HR HX]. cbn [three_q r_remb r_xemb fst snd] in HR, HX. assert (Q := Cmod_sq z). assert (G := Cmod_ge_0 z). apply Rsqr_incr_0_var; [|lra]. rewrite !Rsqr_pow2, Q. nra.
  - rewrite three_samples. unfold three_i, three_v, three_a. change (r_num_b three_q) with 4%nat. cbn [List.combine map]. cbn [List.combine map fst snd]. cbn [fst snd]. rewrite I1, I2, I3, !Rmult_1_r. exact three_tells.
  - now exists r.
Qed.
