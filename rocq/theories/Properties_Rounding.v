(** Property C149: the rounding error of the tunnelling currents.

    [qtcurrent_r] (Model_QtRound.v) is qtcurrent with every sum and product of its loops
    rounded to 53 bits.  [current] (Spec_QtCurrent.v) is the exact formula; [rounding_bound]
    (Spec_Rounding.v) is an error factor times the same formula without cancellation. *)
From Coq Require Import List ZArith Bool Reals Lia Lra.
From Coquelicot Require Import Rcomplements Complex.
From Verif Require Import Base Sums Round Bessel Model_QtCurrent Spec_QtCurrent Spec_Power Spec_QtApi Model_QtFloat Spec_QtFloat Model_QtRound Spec_Rounding
  Proof_QtSym Proof_QtApi2 Proof_QtApi2 Proof_QtFloat Proof_Round5 Properties_Float.
Import ListNotations.
Local Notation length := List.length.
Open Scope R_scope.

(** ** C149 *)
Theorem C149_list : forall J vj cct resp l num_b rmo, args_ok cct num_b ->
  match rmo with None => True | Some rm => matrix_for cct resp (Spec_QtApi.truncations num_b (q_num_f cct)) rm end ->
  moderate cct num_b (SList l) -> (forall w, In w l -> clear (value w)) ->
  (forall a, In a (index_vectors (q_num_p cct) (q_num_f cct)) -> clear (dot a (freqs cct))) ->
  exists rows, qtcurrent_r J vj cct resp (SList l) num_b rmo = Ok (QRows rows) /\ length rows = length l /\
   forall j i d, (j < length l)%nat -> (i < q_npts cct)%nat -> length (nth j rows []) = q_npts cct /\
     Cmod (Cminus (nth i (nth j rows []) (RtoC 0)) (current (q_num_p cct) (tones J vj cct num_b i) (freqs cct) (q_vb cct i) resp (value (nth j l d))))
     <= rounding_bound J vj cct resp num_b (value (nth j l d)) i.
Proof. exact rounded_list. Qed.
Print Assumptions C149_list.

Theorem C149_scalar : forall J vj cct resp w num_b rmo, args_ok cct num_b ->
  match rmo with None => True | Some rm => matrix_for cct resp (Spec_QtApi.truncations num_b (q_num_f cct)) rm end ->
  moderate cct num_b (SScalar w) -> clear w ->
  (forall a, In a (index_vectors (q_num_p cct) (q_num_f cct)) -> clear (dot a (freqs cct))) ->
  (round4 w = 0 -> exists row, qtcurrent_r J vj cct resp (SScalar w) num_b rmo = Ok (QReal row) /\ length row = q_npts cct /\
     forall i, (i < q_npts cct)%nat -> Rabs (nth i row 0 - Re (current (q_num_p cct) (tones J vj cct num_b i) (freqs cct) (q_vb cct i) resp w)) <= rounding_bound J vj cct resp num_b w i) /\
  (round4 w <> 0 -> exists row, qtcurrent_r J vj cct resp (SScalar w) num_b rmo = Ok (QRow row) /\ length row = q_npts cct /\
     forall i, (i < q_npts cct)%nat -> Cmod (Cminus (nth i row (RtoC 0)) (current (q_num_p cct) (tones J vj cct num_b i) (freqs cct) (q_vb cct i) resp w)) <= rounding_bound J vj cct resp num_b w i).
Proof. exact rounded_scalar. Qed.
Print Assumptions C149_scalar.

(** The bound in numbers: the factor is below 1e-15 per rounding, and without harmonics the
    current at the frequency of a single product a is at most twice the largest response. *)
Theorem C149_factor : forall K, INR K <= 1000000000000000 -> error_factor K <= INR K / 1000000000000000.
Proof. exact factor_linear. Qed.
Print Assumptions C149_factor.

Theorem C149_one_product : forall vj cct resp num_b w a i M, args_ok cct num_b -> q_num_p cct = 1%nat -> alone cct w a ->
  (forall v, shifted (q_vb cct i) (Spec_QtApi.truncations num_b (q_num_f cct)) (freqs cct) v -> Cmod (resp v) <= M) -> 0 <= M ->
  let n := (2 * q_num_f cct + fold_right (fun b s => (2 * b + 1) * s) 1 (Spec_QtApi.truncations num_b (q_num_f cct)) + 1 + 3 ^ q_num_f cct)%nat in
  INR n <= 1000000000000000 ->
  rounding_bound besselJ vj cct resp num_b w i <= INR n / 1000000000000000 * (2 * M).
Proof. exact one_product_bound. Qed.
Print Assumptions C149_one_product.

(** One tone with 15 Bessel functions: 37 roundings, so the error of the DC current is below
    74e-15 times the largest response. *)
Definition rd_cct : qcct := {| q_num_f := 1; q_num_p := 1; q_npts := 3; q_freq := fun _ => rnd (3 / 10); q_vb := fun i => INR i / 2 |}.
Definition rd_vj (f p i : nat) : C := (1 / 4, INR i / 10).
Definition rd_resp (v : R) : C := (cos v, sin v).
Lemma rd_freq : Rabs (rnd (3 / 10) - 3 / 10) <= / 1000000000000.
Proof. apply fl_near. rewrite Rabs_pos_eq; lra. Qed.
Lemma rd_in a : In a (index_vectors 1 1) -> exists x, a = [x] /\ (x = -1 \/ x = 0 \/ x = 1)%Z.
Proof.
  intros H. apply in_index_vectors in H. destruct H as [L F]. destruct a as [|x [|y a]]; try discriminate. exists x. split; [reflexivity|].
  inversion F as [|? ? X F']; subst. cbn in X. lia.
Qed.
Lemma rd_clear a : In a (index_vectors (q_num_p rd_cct) (q_num_f rd_cct)) -> clear (dot a (freqs rd_cct)).
Proof.
  intros H. pose proof rd_freq as A. apply Rabs_le_between in A. destruct (rd_in a H) as (x & -> & X). unfold freqs. cbn [rd_cct q_num_f q_freq map seq dot].
  exists (3000 * x)%Z. rewrite mult_IZR. destruct X as [-> | [-> | ->]]; apply Rabs_le; lra.
Qed.
Lemma rd_alone : alone rd_cct 0 [0%Z].
Proof.
  intros a H E. destruct (rd_in a H) as (x & -> & X). pose proof rd_freq as A. apply Rabs_le_between in A. apply round4_close in E. unfold freqs in E. cbn [rd_cct q_num_f q_freq map seq dot] in E.
  destruct X as [-> | [-> | ->]]; try reflexivity; exfalso; revert E; unfold Rabs; destruct Rcase_abs; lra.
Qed.
Lemma rd_args : args_ok rd_cct (NbInt 15).
Proof. pose proof rd_freq as A. apply Rabs_le_between in A. unfold args_ok. cbn [rd_cct q_num_f q_num_p q_freq]. repeat split; try lia. intros; lra. Qed.
Lemma rd_moderate : moderate rd_cct (NbInt 15) (SScalar 0).
Proof.
  pose proof rd_freq as A. apply Rabs_le_between in A. unfold moderate. cbn [rd_cct q_num_f q_num_p q_freq]. split; [reflexivity|]. split; [reflexivity|]. split.
  - intros f _. cbn [INR]. rewrite Rabs_pos_eq; lra.
  - intros w [<- |[]]. rewrite Rabs_R0. lra.
Qed.
Example C149_case : exists row, qtcurrent_r besselJ rd_vj rd_cct rd_resp (SScalar 0) (NbInt 15) None = Ok (QReal row) /\ length row = 3%nat /\
  Rabs (nth 2 row 0 - Re (current 1 (tones besselJ rd_vj rd_cct (NbInt 15) 2) [rnd (3 / 10)] 1 rd_resp 0)) <= 74 / 1000000000000000.
Proof.
  assert (Z : clear 0) by (exists 0%Z; apply Rabs_le; lra).
  destruct (proj1 (C149_scalar besselJ rd_vj rd_cct rd_resp 0 (NbInt 15) None rd_args I rd_moderate Z rd_clear) round4_0) as (row & E & L & H).
  exists row. split; [exact E|]. split; [exact L|]. specialize (H 2%nat ltac:(cbn; lia)).
  replace (q_vb rd_cct 2) with 1 in H by (cbn; lra). eapply Rle_trans; [exact H|].
  eapply Rle_trans; [apply (C149_one_product rd_vj rd_cct rd_resp (NbInt 15) 0 [0%Z] 2 1 rd_args eq_refl rd_alone)|].
  - intros v _. unfold Cmod, rd_resp. cbn [fst snd]. replace (cos v ^ 2 + sin v ^ 2) with 1. { rewrite sqrt_1. lra. } rewrite <- (sin2_cos2 v). unfold Rsqr. ring.
  - lra.
  - apply Rle_trans with (INR 37); [right; reflexivity|]. rewrite INR_IZR_INZ. cbn [Z.of_nat]. simpl. lra.
  - change (INR _) with (INR 37). rewrite INR_IZR_INZ. simpl. lra.
Qed.
(** Two tones with two harmonics and three requests (the case of C121). *)
Example C149_case_list : exists rows, qtcurrent_r besselJ (fun f p i => (1 / 4, INR i)) fl_cct rd_resp fl_request (NbInt 15) None = Ok (QRows rows) /\ length rows = 3%nat.
Proof.
  destruct C121_case as (M & W & A).
  destruct (C149_list besselJ (fun f p i => (1 / 4, INR i)) fl_cct rd_resp [PyFloat 0; NpFloat (rnd (3 / 10)); PyFloat (rnd (7 / 100))] (NbInt 15) None) as (rows & E & L & _); try assumption.
  - assert (X := fl_near (3 / 10) ltac:(rewrite Rabs_pos_eq; lra)). assert (Y := fl_near (37 / 100) ltac:(rewrite Rabs_pos_eq; lra)). apply Rabs_le_between in X, Y.
    unfold args_ok. cbn [fl_cct q_num_f q_num_p q_freq]. repeat split; try lia. intros [|[|f]] _; lra.
  - exact I.
  - intros w Hw. apply W. unfold requested, fl_request. cbn [exact_request flist]. now apply in_map.
  - exists rows. split; [exact E|exact L].
Qed.
