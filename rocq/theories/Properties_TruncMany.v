(** Property C174: several tones without harmonics.  How much the truncations change the
    tunnelling currents and the balanced junction voltages. *)
From Coq Require Import List ZArith Lia Bool Arith Reals Lra String.
From Coquelicot Require Import Complex.
From Verif Require Import Base Sums Round Bessel Model_QtCurrent Spec_QtCurrent Spec_QtApi Spec_Power Model_Circuit Model_HB Spec_HB Spec_HBConv
  Proof_QtCurrent Proof_QtCurrent2 Proof_QtSym Proof_QtApi Proof_QtApi2 Proof_HB3 Proof_QtWit Proof_HBWit Proof_HBWit2 Proof_HBWit4 Proof_HBConv3 Proof_Lip1 Spec_LipMany Proof_LipMany Spec_TruncMany Proof_TruncMany.
Import ListNotations.
Local Notation length := List.length.
Open Scope R_scope.

(** The currents of a lone mixing product for two truncations differ by at most what the
    smaller one leaves out, times four times the bound of the response function. *)
Theorem C174_current : forall q resp num_b num_b' M v w a r r' i, args_ok q num_b -> args_ok q num_b' -> q_num_p q = 1%nat -> no_larger q num_b num_b' -> alone q w a -> (i < q_npts q)%nat ->
  (forall x, shifted (q_vb q i) (truncations num_b' (q_num_f q)) (freqs q) x -> Cmod (resp x) <= M) ->
  qtcurrent besselJ v q resp (FList [w]) num_b None = Ok (QRows [r]) -> qtcurrent besselJ v q resp (FList [w]) num_b' None = Ok (QRows [r']) ->
  Cmod (nth i r (RtoC 0) - nth i r' (RtoC 0))%C <= 4 * M * missed q num_b v i.
Proof. exact truncated_call. Qed.
Print Assumptions C174_current.

(** The voltages [v] that a converged run with one truncation returns are near those that
    balance the circuit with any larger truncation, by an estimate in terms of [v] itself. *)
Theorem C174_estimate : forall c resp num_b num_b' M nu inv max_it stop vj0 d zj v it s, q_num_p (h_q c) = 1%nat -> separate (h_q c) -> 0 <= M -> 0 < nu -> (forall f, (1 <= f <= q_num_f (h_q c))%nat -> nu <= q_freq (h_q c) f) ->
  4 * M * impedances c < nu -> args_ok (h_q c) num_b' -> no_larger (h_q c) num_b num_b' ->
  (forall i x, (i < q_npts (h_q c))%nat -> shifted (q_vb (h_q c) i) (truncations num_b' (q_num_f (h_q c))) (freqs (h_q c)) x -> Cmod (resp x) <= M) ->
  simulates c num_b -> inverts inv -> (0 <= max_it)%Z -> r_ret (harmonic_balance besselJ inv c resp num_b max_it stop vj0 d "x" zj) = Ok (RetX v it true) ->
  everywhere (h_q c) (fun f p i => ~ undefined besselJ (driven c) resp num_b v f p i) -> solution besselJ (driven c) resp num_b' s ->
  forall i, (i < q_npts (h_q c))%nat -> (1 - 4 * M * impedances c / nu) * distance (h_q c) v s i <= stop * total (h_q c) (fun f p => Cmod (v f p i)) + 4 * M * impedances c * missed (h_q c) num_b v i.
Proof. exact truncated_run. Qed.
Print Assumptions C174_estimate.

(** As the truncation grows, the balanced junction voltages of all tones converge, at all bias
    points together. *)
Theorem C174_converges : forall c resp M, (forall b, args_ok (h_q c) (NbInt b)) -> q_num_p (h_q c) = 1%nat -> separate (h_q c) -> 0 <= M -> (forall x, Cmod (resp x) <= M) ->
  (forall f, (1 <= f <= q_num_f (h_q c))%nat -> 4 * M * impedances c < q_freq (h_q c) f) ->
  (forall b, exists sb, solution besselJ c resp (NbInt b) sb) /\
  exists s : arr3, forall eps, 0 < eps -> exists N, forall b sb, (N <= b)%nat -> solution besselJ c resp (NbInt b) sb ->
    forall f i, (1 <= f <= q_num_f (h_q c))%nat -> (i < q_npts (h_q c))%nat -> Cmod (sb f 1%nat i - s f 1%nat i)%C <= eps.
Proof. intros c resp M A HP HT P0 HR HZ. split; [exact (truncations_solved c resp M A HP HT P0 HR HZ)|exact (truncations_converge c resp M A HP HT P0 HR HZ)]. Qed.
Print Assumptions C174_converges.

(** Three tones, in the ratio 4 to 5 to 7, a response on the unit circle, impedances of 1/64. *)
Definition tm_q : qcct := {| q_num_f := 3; q_num_p := 1; q_npts := 3; q_freq := fun f => match f with 1%nat => 4 | 2%nat => 5 | _ => 7 end; q_vb := fun i => INR i / 4 |}.
Definition tm_c : hcct := {| h_q := tm_q; h_vt := fun f p => RtoC 1; h_zt := fun f p => RtoC (1 / 64); h_wvt := true |}.
Definition tm_resp (v : R) : C := (cos v, sin v).
Lemma tm_args num_b : match num_b with NbInt _ => True | NbTuple l => (3 <= length l)%nat end -> args_ok tm_q num_b.
Proof. intros H. unfold args_ok. cbn [tm_q q_num_f q_num_p q_freq]. repeat split; try lia; [intros [|[|[|f]]] _; lra|]. destruct num_b; [exact I|exact H]. Qed.
Lemma tm_in a : In a (index_vectors 1 3) -> exists x y z, a = [x; y; z] /\ (x = -1 \/ x = 0 \/ x = 1)%Z /\ (y = -1 \/ y = 0 \/ y = 1)%Z /\ (z = -1 \/ z = 0 \/ z = 1)%Z.
Proof.
  intros H. apply in_index_vectors in H. destruct H as [L F]. destruct a as [|x [|y [|z [|u a]]]]; try discriminate. exists x, y, z. split; [reflexivity|].
  inversion F as [|? ? X F']; subst. inversion F' as [|? ? Y F'']; subst. inversion F'' as [|? ? Z F3]; subst. cbn in X, Y, Z. lia.
Qed.
Ltac tm_alone := intros a H E; change (q_num_p tm_q) with 1%nat in H; change (q_num_f tm_q) with 3%nat in H; destruct (tm_in a H) as (x & y & z & -> & X & Y & Z); apply round4_close in E;
  unfold freqs in E; cbn [tm_q q_num_f q_freq seq map dot] in E;
  destruct X as [-> | [-> | ->]]; destruct Y as [-> | [-> | ->]]; destruct Z as [-> | [-> | ->]]; try reflexivity; exfalso; revert E; unfold Rabs; destruct Rcase_abs; lra.
Lemma tm_alone_1 : alone tm_q 4 [1; 0; 0]%Z.
Proof. tm_alone. Qed.
Lemma tm_alone_2 : alone tm_q 5 [0; 1; 0]%Z.
Proof. tm_alone. Qed.
Lemma tm_alone_3 : alone tm_q 7 [0; 0; 1]%Z.
Proof. tm_alone. Qed.
Lemma tm_separate : separate tm_q.
Proof. intros f F. cbn [tm_q q_num_f] in F. assert (f = 1%nat \/ f = 2%nat \/ f = 3%nat) as [-> | [-> | ->]] by lia; cbn [tm_q q_freq]; eexists; [exact tm_alone_1|exact tm_alone_2|exact tm_alone_3]. Qed.
Lemma tm_unit v : Cmod (tm_resp v) <= 1.
Proof. unfold Cmod, tm_resp. cbn [fst snd]. replace (cos v ^ 2 + sin v ^ 2) with 1; [rewrite sqrt_1; lra|]. rewrite <- (sin2_cos2 v). unfold Rsqr. ring. Qed.
Lemma tm_imp : impedances tm_c = 3 / 64.
Proof. unfold impedances. cbn [tm_c h_q h_zt tm_q q_num_f rsum_to]. rewrite Cmod_R, Rabs_pos_eq; lra. Qed.
Example C174_case : (exists s : arr3, forall eps, 0 < eps -> exists N, forall b sb, (N <= b)%nat -> solution besselJ tm_c tm_resp (NbInt b) sb -> Cmod (sb 3%nat 1%nat 2%nat - s 3%nat 1%nat 2%nat)%C <= eps) /\
  (exists N, forall max_it, (Z.of_nat N < max_it)%Z -> exists v m, r_ret (harmonic_balance besselJ exact_inv tm_c tm_resp (NbTuple [3; 2; 1]%nat) max_it (1 / 1000) None 1 "x" (RtoC (1 / 2))) = Ok (RetX v (Z.of_nat m) true)) /\
  simulates tm_c (NbTuple [3; 2; 1]%nat) /\ no_larger tm_q (NbTuple [3; 2; 1]%nat) (NbInt 9) /\ 4 * 1 * impedances tm_c < 4.
Proof.
  assert (MZ : Cmod (RtoC (1 / 64)) = 1 / 64) by (rewrite Cmod_R, Rabs_pos_eq; lra).
  assert (AR : args_ok tm_q (NbTuple [3; 2; 1]%nat)) by (apply tm_args; cbn; lia).
  assert (SI : simulates tm_c (NbTuple [3; 2; 1]%nat)). { split; [exact AR|]. split; [cbn; lia|]. split; [reflexivity|]. exists 1%nat, 1%nat. cbn [tm_c h_q h_zt tm_q q_num_f q_num_p]. repeat split; try lia. intros E. apply (f_equal fst) in E. cbn in E. lra. }
  split; [|split; [|split; [exact SI|split]]].
  - destruct (C174_converges tm_c tm_resp 1 (fun b => tm_args (NbInt b) I) eq_refl tm_separate ltac:(lra) tm_unit) as [_ [s H]].
    + intros f F. rewrite tm_imp. cbn [tm_c h_q tm_q q_freq]. destruct f as [|[|[|f]]]; lra.
    + exists s. intros eps E0. destruct (H eps E0) as [N HN]. exists N. intros b sb Hb SB. apply (HN b sb Hb SB); cbn; lia.
  - destruct (many_converges tm_c tm_resp (NbTuple [3; 2; 1]%nat) 1) as [s [_ [_ HN]]].
    + exact AR.
    + reflexivity.
    + exact tm_separate.
    + intros i x _ _. apply tm_unit.
    + lra.
    + exact SI.
    + intros f F. change (zsum_c tm_c) with (impedances tm_c). rewrite tm_imp. cbn [tm_c h_q tm_q q_freq]. destruct f as [|[|[|f]]]; lra.
    + intros f F. cbn [tm_c h_vt h_zt]. rewrite MZ, source_big by apply big_1. rewrite Cmod_1. lra.
    + destruct (HN exact_inv 1 None (RtoC (1 / 2)) (1 / 1000) exact_inv_inverts) as [N H]; try lra.
      * right. intros f p _. cbn [tm_c h_zt]. rewrite <- RtoC_plus. intros E. apply (f_equal fst) in E. cbn [fst RtoC] in E. lra.
      * exists N. intros max_it HM. destruct (H max_it HM) as (v & m & R1 & _). eauto.
  - intros f F. cbn [tm_q q_num_f] in *. destruct f as [|[|[|f]]]; cbn; lia.
  - rewrite tm_imp. lra.
Qed.
