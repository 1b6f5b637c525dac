(** Properties C116-C119: convergence of the tunnelling currents with the number of
    Bessel functions, the meaning of the phase-factor coefficients, Ohm's law and the
    power balance, for any number of tones and harmonics.

    The vocabulary is in Spec_Phase.v and Spec_Power.v.  [Forall (le n) (truncations
    num_b num_f)] says that every tone keeps at least n Bessel functions. *)
From Coq Require Import List ZArith Bool Reals Lia Lra.
From Coquelicot Require Import Coquelicot.
From Verif Require Import Base Sums Round Bessel Model_QtCurrent Spec_QtCurrent Spec_QtApi Spec_Power Spec_Phase
  Proof_QtCurrent Proof_QtCurrent2 Proof_QtSym Proof_QtApi2 Proof_Converge Proof_Phase Proof_Ohm Proof_Power4 Proof_Limit Properties_Power.
Import ListNotations.
Open Scope R_scope.
Local Notation length := List.length.
Local Notation Forall := List.Forall.

(** Two tones with two harmonics each, three bias points. *)
Definition ph_cct : qcct :=
  {| q_num_f := 2; q_num_p := 2; q_npts := 3; q_freq := fun f => match f with 1%nat => 3 / 10 | _ => 37 / 100 end; q_vb := fun i => INR i |}.
Definition ph_vj (f p i : nat) : C := (1 / INR (f + p), INR i / 10).
Lemma ph_args n : args_ok ph_cct (NbInt n).
Proof. unfold args_ok. cbn [ph_cct q_num_f q_num_p q_freq]. repeat split; try lia. intros [|[|f]] _; lra. Qed.
Lemma ph_args2 l : (2 <= length l)%nat -> args_ok ph_cct (NbTuple l).
Proof. intros H. unfold args_ok. cbn [ph_cct q_num_f q_num_p q_freq]. repeat split; try lia. intros [|[|f]] _; lra. Qed.
Lemma ph_in a : In a (index_vectors 2 2) -> exists x y, a = [x; y] /\ (x = -2 \/ x = -1 \/ x = 0 \/ x = 1 \/ x = 2)%Z /\ (y = -2 \/ y = -1 \/ y = 0 \/ y = 1 \/ y = 2)%Z.
Proof.
  intros H. apply in_index_vectors in H. destruct H as [L F]. destruct a as [|x [|y [|z a]]]; try discriminate. exists x, y. split; [reflexivity|].
  inversion F as [|? ? X F']; subst. inversion F' as [|? ? Y F'']; subst. cbn in X, Y. lia.
Qed.
Lemma ph_alone w x0 y0 : (forall x y, (x = -2 \/ x = -1 \/ x = 0 \/ x = 1 \/ x = 2)%Z -> (y = -2 \/ y = -1 \/ y = 0 \/ y = 1 \/ y = 2)%Z ->
  (x = x0 /\ y = y0) \/ / 10000 < IZR x * (3 / 10) + IZR y * (37 / 100) - w \/ IZR x * (3 / 10) + IZR y * (37 / 100) - w < - / 10000) -> alone ph_cct w [x0; y0].
Proof.
  intros H a Ha E. change (q_num_p ph_cct) with 2%nat in Ha. change (q_num_f ph_cct) with 2%nat in Ha. destruct (ph_in a Ha) as (x & y & -> & X & Y). apply round4_close in E. unfold freqs in E. cbn [ph_cct q_num_f q_freq seq map dot] in E.
  destruct (H x y X Y) as [[-> ->]|D]; [reflexivity|]. exfalso. revert E. unfold Rabs. destruct Rcase_abs; lra.
Qed.
Ltac ph_cases := intros x y X Y; destruct X as [-> | [-> | [-> | [-> | ->]]]]; destruct Y as [-> | [-> | [-> | [-> | ->]]]]; first [left; split; reflexivity | right; left; lra | right; right; lra].
Lemma ph_alone_dc : alone ph_cct 0 [0; 0]%Z. Proof. apply ph_alone. ph_cases. Qed.
Lemma ph_alone_single f p : (1 <= f <= 2)%nat -> (1 <= p <= 2)%nat -> alone ph_cct (INR p * q_freq ph_cct f) (single 2 f p).
Proof.
  intros F P. assert (FF : f = 1%nat \/ f = 2%nat) by lia. assert (PP : p = 1%nat \/ p = 2%nat) by lia. destruct FF as [-> | ->], PP as [-> | ->]; cbn [ph_cct q_freq INR single map seq Nat.eqb Z.of_nat Pos.of_succ_nat Pos.succ]; apply ph_alone; ph_cases.
Qed.
Lemma ph_alone_mixed : alone ph_cct (7 / 100) [-1; 1]%Z. Proof. apply ph_alone. ph_cases. Qed.
Lemma ph_all n : Forall (le n) (truncations (NbInt n) 2).
Proof. apply (trunc_int ph_cct n n). lia. Qed.
Lemma ph_row vj resp num_b l : args_ok ph_cct num_b -> exists rows, qtcurrent besselJ vj ph_cct resp (FList l) num_b None = Ok (QRows rows).
Proof. intros A. rewrite qt_list by assumption. eexists. reflexivity. Qed.

(** ** C116 *)
Theorem C116_error : forall vj cct resp A B q, 0 <= B -> 0 < q -> (forall v, Cmod (resp v) <= A * exp (B * Rabs v)) ->
  exists K, 0 <= K /\ forall num_b num_b' n l rows rows' i j,
  args_ok cct num_b -> args_ok cct num_b' ->
  Forall (le n) (truncations num_b (q_num_f cct)) -> Forall (le n) (truncations num_b' (q_num_f cct)) ->
  qtcurrent besselJ vj cct resp (FList l) num_b None = Ok (QRows rows) ->
  qtcurrent besselJ vj cct resp (FList l) num_b' None = Ok (QRows rows') ->
  (j < length l)%nat -> (i < q_npts cct)%nat ->
  Cmod (Cminus (nth i (nth j rows []) (RtoC 0)) (nth i (nth j rows' []) (RtoC 0))) <= K * q ^ n.
Proof. exact converges. Qed.
Print Assumptions C116_error.

(** There is one limit, reached faster than any geometric sequence. *)
Theorem C116_limit : forall vj cct resp A B, 0 <= B -> (forall v, Cmod (resp v) <= A * exp (B * Rabs v)) ->
  exists L : R -> nat -> C, forall q, 0 < q -> exists K, 0 <= K /\ forall num_b n l rows i j,
  args_ok cct num_b -> Forall (le n) (truncations num_b (q_num_f cct)) ->
  qtcurrent besselJ vj cct resp (FList l) num_b None = Ok (QRows rows) -> (j < length l)%nat -> (i < q_npts cct)%nat ->
  Cmod (Cminus (nth i (nth j rows []) (RtoC 0)) (L (nth j l 0) i)) <= K * q ^ n.
Proof. exact ideal_limit. Qed.
Print Assumptions C116_limit.

Definition ph_resp (v : R) : C := (0, 2 * v + sin v).
Lemma ph_resp_bound v : Cmod (ph_resp v) <= 3 * exp (1 * Rabs v).
Proof.
  eapply Rle_trans; [apply Cmod_parts|]. rewrite Rabs_R0, Rplus_0_l, Rmult_1_l. eapply Rle_trans; [apply Rabs_triang|]. rewrite Rabs_mult, (Rabs_pos_eq 2) by lra.
  assert (Rabs (sin v) <= 1) by (pose proof (SIN_bound v); unfold Rabs; destruct Rcase_abs; lra). assert (X := exp_ineq1_le (Rabs v)). assert (Y := Rabs_pos v). lra.
Qed.
Example C116_case : exists K, 0 <= K /\ forall n m rows rows', (n <= m)%nat ->
  qtcurrent besselJ ph_vj ph_cct ph_resp (FList [3 / 10; 7 / 100]) (NbInt n) None = Ok (QRows rows) ->
  qtcurrent besselJ ph_vj ph_cct ph_resp (FList [3 / 10; 7 / 100]) (NbInt m) None = Ok (QRows rows') ->
  Cmod (Cminus (nth 2 (nth 1 rows []) (RtoC 0)) (nth 2 (nth 1 rows' []) (RtoC 0))) <= K * (/ 1000) ^ n.
Proof.
  destruct (C116_error ph_vj ph_cct ph_resp 3 1 (/ 1000) ltac:(lra) ltac:(lra) ph_resp_bound) as [K [K0 H]]. exists K. split; [assumption|]. intros n m rows rows' L E E'.
  apply (H (NbInt n) (NbInt m) n _ rows rows' 2%nat 1%nat (ph_args n) (ph_args m) (ph_all n) (trunc_int ph_cct n m L) E E'); cbn; lia.
Qed.
Example C116_case_runs : exists rows, qtcurrent besselJ ph_vj ph_cct ph_resp (FList [3 / 10; 7 / 100]) (NbTuple [8; 9]%nat) None = Ok (QRows rows).
Proof. apply ph_row. apply ph_args2. cbn. lia. Qed.

(** ** C117 *)
(** The phase is the integral of the voltage waveform. *)
Theorem C117_phase : forall vj freq num_p f i t, freq f <> 0 ->
  is_derive (junction_phase vj freq num_p f i) t (waveform vj freq num_p f i t).
Proof. exact phase_is_integral. Qed.
Print Assumptions C117_phase.

Theorem C117_series : forall vj freq num_f num_p f i q,
  (1 <= num_p)%nat -> (1 <= f <= num_f)%nat -> freq f <> 0 -> 0 < q <= 1 ->
  exists K, 0 <= K /\ forall num_b n ccc t, (num_f <= length (nbtuple num_b num_f))%nat -> Forall (le n) (truncations num_b num_f) ->
  calculate_phase_factor_coeff besselJ vj freq num_f num_p num_b = Ok ccc ->
  Cmod (Cminus (series ccc f (nth (f - 1) (nbtuple num_b num_f) O) i (freq f * t)) (cis (junction_phase vj freq num_p f i t))) <= K * q ^ n.
Proof. exact series_converges. Qed.
Print Assumptions C117_series.

Theorem C117_probabilities : forall vj freq num_f num_p f i q, (1 <= num_p)%nat -> (1 <= f <= num_f)%nat -> 0 < q ->
  exists K, 0 <= K /\ forall num_b n ccc, (num_f <= length (nbtuple num_b num_f))%nat -> Forall (le n) (truncations num_b num_f) ->
  calculate_phase_factor_coeff besselJ vj freq num_f num_p num_b = Ok ccc ->
  Rabs (zsum (nth (f - 1) (nbtuple num_b num_f) O) (fun k => Cmod (coefficient ccc f k i) ^ 2) - 1) <= K * q ^ n.
Proof. exact photons_normal. Qed.
Print Assumptions C117_probabilities.

Example C117_case : exists K, 0 <= K /\ forall n, exists ccc, calculate_phase_factor_coeff besselJ ph_vj (q_freq ph_cct) 2 2 (NbInt n) = Ok ccc /\
  (forall t, Cmod (Cminus (series ccc 2 n 1 (37 / 100 * t)) (cis (junction_phase ph_vj (q_freq ph_cct) 2 2 1 t))) <= K * (/ 10) ^ n) /\
  Rabs (zsum n (fun k => Cmod (coefficient ccc 2 k 1) ^ 2) - 1) <= K * (/ 10) ^ n.
Proof.
  destruct (C117_series ph_vj (q_freq ph_cct) 2 2 2 1 (/ 10) ltac:(lia) ltac:(lia) ltac:(cbn; lra) ltac:(lra)) as [K [K0 H]]. destruct (C117_probabilities ph_vj (q_freq ph_cct) 2 2 2 1 (/ 10) ltac:(lia) ltac:(lia) ltac:(lra)) as [K' [K0' H']].
  exists (Rmax K K'). split; [eapply Rle_trans; [exact K0|apply Rmax_l]|]. intros n. destruct (calculate_phase_factor_coeff_spec besselJ ph_vj (q_freq ph_cct) 2 2 (NbInt n) ltac:(lia) ltac:(lia) (le_n 2)) as [ccc [E _]]. exists ccc. split; [exact E|].
  assert (QN : 0 <= (/ 10) ^ n) by (apply pow_le; lra). split.
  - intros t. eapply Rle_trans; [exact (H (NbInt n) n ccc t (le_n 2) (ph_all n) E)|]. apply Rmult_le_compat_r; [assumption|apply Rmax_l].
  - eapply Rle_trans; [exact (H' (NbInt n) n ccc (le_n 2) (ph_all n) E)|]. apply Rmult_le_compat_r; [assumption|apply Rmax_r].
Qed.

(** ** C118 *)
Theorem C118_ohm : forall vj cct g q, 0 < q -> exists K, 0 <= K /\ forall num_b n l rows i j,
  args_ok cct num_b -> Forall (le n) (truncations num_b (q_num_f cct)) ->
  qtcurrent besselJ vj cct (fun v => (0, g * v)) (FList l) num_b None = Ok (QRows rows) -> (j < length l)%nat -> (i < q_npts cct)%nat ->
  let w := nth j l 0 in let I := nth i (nth j rows []) (RtoC 0) in
  (* bias *)
  (round4 w = 0 -> alone cct w (repeat 0%Z (q_num_f cct)) -> Cmod (Cminus I (RtoC (g * q_vb cct i))) <= K * q ^ n) /\
  (* harmonic p of tone f *)
  (forall f p, (1 <= f <= q_num_f cct)%nat -> (1 <= p <= q_num_p cct)%nat -> round4 w = round4 (INR p * q_freq cct f) -> alone cct w (single (q_num_f cct) f p) ->
    Cmod (Cminus I (Cmult (RtoC g) (vj f p i))) <= K * q ^ n) /\
  (* products of several tones *)
  (forall a, mixed a -> alone cct w a -> Cmod I <= K * q ^ n).
Proof. exact ohm_limits. Qed.
Print Assumptions C118_ohm.

Example C118_case : exists K, 0 <= K /\ forall n rows, qtcurrent besselJ ph_vj ph_cct (fun v => (0, 5 * v)) (FList [0; INR 2 * (37 / 100); 7 / 100]) (NbInt n) None = Ok (QRows rows) ->
  Cmod (Cminus (nth 2 (nth 0 rows []) (RtoC 0)) (RtoC (5 * 2))) <= K * (/ 10) ^ n /\
  Cmod (Cminus (nth 2 (nth 1 rows []) (RtoC 0)) (Cmult (RtoC 5) (ph_vj 2 2 2))) <= K * (/ 10) ^ n /\
  Cmod (nth 2 (nth 2 rows []) (RtoC 0)) <= K * (/ 10) ^ n.
Proof.
  destruct (C118_ohm ph_vj ph_cct 5 (/ 10) ltac:(lra)) as [K [K0 H]]. exists K. split; [assumption|]. intros n rows E. split; [|split].
  - destruct (H (NbInt n) n _ rows 2%nat 0%nat (ph_args n) (ph_all n) E) as [H1 _]; [cbn; lia|cbn; lia|]. assert (X := H1 round4_0 ph_alone_dc). cbn [ph_cct q_vb] in X. replace (INR 2) with 2 in X by (cbn; ring). exact X.
  - destruct (H (NbInt n) n _ rows 2%nat 1%nat (ph_args n) (ph_all n) E) as (_ & H2 & _); [cbn; lia|cbn; lia|]. apply (H2 2%nat 2%nat); [cbn; lia|cbn; lia|reflexivity|]. apply (ph_alone_single 2 2); lia.
  - destruct (H (NbInt n) n _ rows 2%nat 2%nat (ph_args n) (ph_all n) E) as (_ & _ & H3); [cbn; lia|cbn; lia|]. apply (H3 [-1; 1]%Z); [|exact ph_alone_mixed]. exists 0%nat, 1%nat. cbn. lia.
Qed.

(** ** C119 *)
(** The delivered power is the mean over the photon numbers of voltage times current. *)
Theorem C119_balance : forall vj cct resp A B q, 0 <= B -> 0 < q -> (forall v, Cmod (resp v) <= A * exp (B * Rabs v)) ->
  alone cct 0 (repeat 0%Z (q_num_f cct)) ->
  (forall f p, (1 <= f <= q_num_f cct)%nat -> (1 <= p <= q_num_p cct)%nat -> alone cct (INR p * q_freq cct f) (single (q_num_f cct) f p)) ->
  exists K, 0 <= K /\ forall num_b n ccc dc ac i, args_ok cct num_b -> Forall (le n) (truncations num_b (q_num_f cct)) ->
  calculate_phase_factor_coeff besselJ vj (q_freq cct) (q_num_f cct) (q_num_p cct) num_b = Ok ccc ->
  qtcurrent besselJ vj cct resp (FScalar 0) num_b None = Ok (QReal dc) ->
  (forall f p, (1 <= f <= q_num_f cct)%nat -> (1 <= p <= q_num_p cct)%nat -> qtcurrent besselJ vj cct resp (FList [INR p * q_freq cct f]) num_b None = Ok (QRows [ac f p])) -> (i < q_npts cct)%nat ->
  Rabs (delivered vj cct dc ac i - mean (photons ccc num_b (q_num_f cct) i) (fun ks => let v := q_vb cct i + dot ks (freqs cct) in v * Im (resp v))) <= K * q ^ n.
Proof. exact balance. Qed.
Print Assumptions C119_balance.

Theorem C119_passive : forall vj cct resp A B q, 0 <= B -> 0 < q -> (forall v, Cmod (resp v) <= A * exp (B * Rabs v)) ->
  (forall v, 0 <= v * Im (resp v)) -> alone cct 0 (repeat 0%Z (q_num_f cct)) ->
  (forall f p, (1 <= f <= q_num_f cct)%nat -> (1 <= p <= q_num_p cct)%nat -> alone cct (INR p * q_freq cct f) (single (q_num_f cct) f p)) ->
  exists K, 0 <= K /\ forall num_b n dc ac i, args_ok cct num_b -> Forall (le n) (truncations num_b (q_num_f cct)) ->
  qtcurrent besselJ vj cct resp (FScalar 0) num_b None = Ok (QReal dc) ->
  (forall f p, (1 <= f <= q_num_f cct)%nat -> (1 <= p <= q_num_p cct)%nat -> qtcurrent besselJ vj cct resp (FList [INR p * q_freq cct f]) num_b None = Ok (QRows [ac f p])) -> (i < q_npts cct)%nat ->
  - (K * q ^ n) <= delivered vj cct dc ac i.
Proof. exact passive_limit. Qed.
Print Assumptions C119_passive.

Definition ph_diode (v : R) : C := (cos v, v / (1 + v * v)).
Lemma ph_diode_bound v : Cmod (ph_diode v) <= 2 * exp (0 * Rabs v).
Proof.
  rewrite Rmult_0_l, exp_0. eapply Rle_trans; [apply Cmod_parts|]. assert (X : Rabs (cos v) <= 1) by (pose proof (COS_bound v); unfold Rabs; destruct Rcase_abs; lra).
  assert (D : 0 < 1 + v * v) by (pose proof (Rle_0_sqr v) as S; unfold Rsqr in S; lra). assert (Y : Rabs (v / (1 + v * v)) <= 1). { apply Rabs_le. split; apply (Rmult_le_reg_r (1 + v * v)); try assumption; unfold Rdiv; rewrite ?Rmult_assoc, Rinv_l by lra; nra. } lra.
Qed.
Lemma ph_diode_passive v : 0 <= v * Im (ph_diode v).
Proof. cbn [ph_diode Im snd]. assert (D : 0 < 1 + v * v) by (pose proof (Rle_0_sqr v) as S; unfold Rsqr in S; lra). replace (v * (v / (1 + v * v))) with (v * v / (1 + v * v)) by (field; lra). apply Rmult_le_pos; [apply Rle_0_sqr|]. left. now apply Rinv_0_lt_compat. Qed.
Example C119_case : exists K, 0 <= K /\ forall n, exists dc ac, qtcurrent besselJ ph_vj ph_cct ph_diode (FScalar 0) (NbInt n) None = Ok (QReal dc) /\
  (forall f p, (1 <= f <= 2)%nat -> (1 <= p <= 2)%nat -> qtcurrent besselJ ph_vj ph_cct ph_diode (FList [INR p * q_freq ph_cct f]) (NbInt n) None = Ok (QRows [ac f p])) /\
  - (K * (/ 10) ^ n) <= delivered ph_vj ph_cct dc ac 2.
Proof.
  destruct (C119_passive ph_vj ph_cct ph_diode 2 0 (/ 10) ltac:(lra) ltac:(lra) ph_diode_bound ph_diode_passive ph_alone_dc ph_alone_single) as [K [K0 H]]. exists K. split; [assumption|]. intros n.
  destruct (qt_dc_runs ph_vj ph_cct ph_diode (NbInt n) (ph_args n)) as [dc E].
  set (ac := fun f p => match qtcurrent besselJ ph_vj ph_cct ph_diode (FList [INR p * q_freq ph_cct f]) (NbInt n) None with Ok (QRows [r]) => r | _ => [] end).
  assert (EA : forall f p, qtcurrent besselJ ph_vj ph_cct ph_diode (FList [INR p * q_freq ph_cct f]) (NbInt n) None = Ok (QRows [ac f p])). { intros f p. unfold ac. destruct (qt_ac_runs ph_vj ph_cct ph_diode (NbInt n) (INR p * q_freq ph_cct f) (ph_args n)) as [row E']. now rewrite E'. }
  exists dc, ac. split; [exact E|]. split; [intros; apply EA|]. apply (H (NbInt n) n dc ac 2%nat (ph_args n) (ph_all n) E); [intros; apply EA|cbn; lia].
Qed.
