(** Property C173: several tones without harmonics.  The change of the tunnelling currents with
    the junction voltages is bounded by the response function, whatever the truncations; from
    this, how small the embedding impedances have to be for harmonic_balance to converge. *)
From Coq Require Import List ZArith Lia Bool Arith Reals Lra String.
From Coquelicot Require Import Complex.
From Verif Require Import Base Sums Round Bessel Model_QtCurrent Spec_QtCurrent Spec_QtApi Spec_Power Model_Circuit Model_HB Spec_HB Spec_HBConv
  Proof_QtCurrent Proof_QtCurrent2 Proof_QtSym Proof_QtApi Proof_QtApi2 Proof_HB3 Proof_QtWit Proof_HBWit Proof_HBWit2 Proof_HBWit4 Proof_HBConv3 Proof_Lip1 Spec_LipMany Proof_LipMany.
Import ListNotations.
Local Notation length := List.length.
Open Scope R_scope.

(** If the response function is at most [M] at the bias voltage plus the photon steps that are
    summed over, the current of a lone mixing product changes by at most [4 * M] per photon
    step of the junction voltages... *)
Theorem C173_alternating : forall q resp num_b M v v' w a r r' i, args_ok q num_b -> q_num_p q = 1%nat -> alone q w a -> (i < q_npts q)%nat ->
  (forall x, shifted (q_vb q i) (truncations num_b (q_num_f q)) (freqs q) x -> Cmod (resp x) <= M) ->
  qtcurrent besselJ v q resp (FList [w]) num_b None = Ok (QRows [r]) -> qtcurrent besselJ v' q resp (FList [w]) num_b None = Ok (QRows [r']) ->
  Cmod (nth i r (RtoC 0) - nth i r' (RtoC 0))%C <= 4 * M * photon_steps q v v' i.
Proof. exact many_call. Qed.
Print Assumptions C173_alternating.

(** ...and the direct current by at most [2 * M]. *)
Theorem C173_direct : forall q resp num_b M v v' r r' i, args_ok q num_b -> q_num_p q = 1%nat -> alone q 0 (repeat 0%Z (q_num_f q)) -> (i < q_npts q)%nat ->
  (forall x, shifted (q_vb q i) (truncations num_b (q_num_f q)) (freqs q) x -> Cmod (resp x) <= M) ->
  qtcurrent besselJ v q resp (FScalar 0) num_b None = Ok (QReal r) -> qtcurrent besselJ v' q resp (FScalar 0) num_b None = Ok (QReal r') ->
  Rabs (nth i r 0 - nth i r' 0) <= 2 * M * photon_steps q v v' i.
Proof. exact many_dc. Qed.
Print Assumptions C173_direct.

(** The circuit has one solution and harmonic_balance finds it, from any initial voltages, if
    the impedances together are below a sixteenth of every photon voltage over [M] and the
    current [2 * M] through each drops less than its source voltage. *)
Theorem C173_converges : forall c resp num_b M, args_ok (h_q c) num_b -> q_num_p (h_q c) = 1%nat -> separate (h_q c) ->
  (forall i x, (i < q_npts (h_q c))%nat -> shifted (q_vb (h_q c) i) (truncations num_b (q_num_f (h_q c))) (freqs (h_q c)) x -> Cmod (resp x) <= M) -> 0 <= M ->
  simulates c num_b ->
  (forall f, (1 <= f <= q_num_f (h_q c))%nat -> 16 * M * rsum_to (q_num_f (h_q c)) (fun f => Cmod (h_zt c (S f) 1%nat)) < q_freq (h_q c) f) ->
  (forall f, (1 <= f <= q_num_f (h_q c))%nat -> 2 * M * Cmod (h_zt c f 1%nat) < Cmod (source (h_vt c f 1%nat))) ->
  exists s, solution besselJ (driven c) resp num_b s /\ (forall s', solution besselJ (driven c) resp num_b s' -> agree (h_q c) s s') /\
    forall inv d vj0 zj stop, inverts inv -> 0 < d <= 1 -> can_start c vj0 zj -> 0 < stop -> exists N, forall max_it, (Z.of_nat N < max_it)%Z ->
      exists v m, r_ret (harmonic_balance besselJ inv c resp num_b max_it stop vj0 d "x" zj) = Ok (RetX v (Z.of_nat m) true) /\ (m <= N)%nat.
Proof. exact many_converges. Qed.
Print Assumptions C173_converges.

(** Two tones at 1 and 3/2, unit sources behind 1/64, a response on the unit circle. *)
Definition lm_q : qcct := {| q_num_f := 2; q_num_p := 1; q_npts := 3; q_freq := fun f => match f with 1%nat => 1 | _ => 3 / 2 end; q_vb := fun i => INR i / 4 |}.
Definition lm_c : hcct := {| h_q := lm_q; h_vt := fun f p => RtoC 1; h_zt := fun f p => RtoC (1 / 64); h_wvt := true |}.
Definition lm_resp (v : R) : C := (cos v, sin v).
Lemma lm_args l : (2 <= length l)%nat -> args_ok lm_q (NbTuple l).
Proof. intros H. unfold args_ok. cbn [lm_q q_num_f q_num_p q_freq]. repeat split; try lia. intros [|[|f]] _; lra. Qed.
Lemma lm_in a : In a (index_vectors 1 2) -> exists x y, a = [x; y] /\ (x = -1 \/ x = 0 \/ x = 1)%Z /\ (y = -1 \/ y = 0 \/ y = 1)%Z.
Proof.
  intros H. apply in_index_vectors in H. destruct H as [L F]. destruct a as [|x [|y [|z a]]]; try discriminate. exists x, y. split; [reflexivity|].
  inversion F as [|? ? X F']; subst. inversion F' as [|? ? Y F'']; subst. cbn in X, Y. lia.
Qed.
Ltac lm_alone := intros a H E; change (q_num_p lm_q) with 1%nat in H; change (q_num_f lm_q) with 2%nat in H; destruct (lm_in a H) as (x & y & -> & X & Y); apply round4_close in E;
  unfold freqs in E; cbn [lm_q q_num_f q_freq seq map dot] in E;
  destruct X as [-> | [-> | ->]]; destruct Y as [-> | [-> | ->]]; try reflexivity; exfalso; revert E; unfold Rabs; destruct Rcase_abs; lra.
Lemma lm_alone_0 : alone lm_q 0 [0; 0]%Z.
Proof. lm_alone. Qed.
Lemma lm_alone_1 : alone lm_q 1 [1; 0]%Z.
Proof. lm_alone. Qed.
Lemma lm_alone_2 : alone lm_q (3 / 2) [0; 1]%Z.
Proof. lm_alone. Qed.
Lemma lm_separate : separate lm_q.
Proof. intros f F. cbn [lm_q q_num_f] in F. assert (f = 1%nat \/ f = 2%nat) as [-> | ->] by lia; cbn [lm_q q_freq]; eexists; [exact lm_alone_1|exact lm_alone_2]. Qed.
Lemma lm_unit v : Cmod (lm_resp v) <= 1.
Proof. unfold Cmod, lm_resp. cbn [fst snd]. replace (cos v ^ 2 + sin v ^ 2) with 1; [rewrite sqrt_1; lra|]. rewrite <- (sin2_cos2 v). unfold Rsqr. ring. Qed.
Example C173_case : exists N, forall max_it, (Z.of_nat N < max_it)%Z ->
  exists v m, r_ret (harmonic_balance besselJ exact_inv lm_c lm_resp (NbTuple [2; 3]%nat) max_it (1 / 1000) None 1 "x" (RtoC (1 / 2))) = Ok (RetX v (Z.of_nat m) true) /\ (m <= N)%nat.
Proof.
  assert (MZ : Cmod (RtoC (1 / 64)) = 1 / 64) by (rewrite Cmod_R, Rabs_pos_eq; lra).
  assert (AR : args_ok lm_q (NbTuple [2; 3]%nat)) by (apply lm_args; cbn; lia).
  destruct (C173_converges lm_c lm_resp (NbTuple [2; 3]%nat) 1) as [s [_ [_ HN]]].
  - exact AR.
  - reflexivity.
  - exact lm_separate.
  - intros i x _ _. apply lm_unit.
  - lra.
  - split; [exact AR|]. split; [cbn; lia|]. split; [reflexivity|]. exists 1%nat, 1%nat. cbn [lm_c h_q h_zt lm_q q_num_f q_num_p]. repeat split; try lia. intros E. apply (f_equal fst) in E. cbn in E. lra.
  - intros f F. cbn [lm_c h_q h_zt lm_q q_num_f q_freq rsum_to]. rewrite MZ. destruct f as [|[|f]]; lra.
  - intros f F. cbn [lm_c h_vt h_zt]. rewrite MZ, source_big by apply big_1. rewrite Cmod_1. lra.
  - apply (HN exact_inv 1 None (RtoC (1 / 2)) (1 / 1000) exact_inv_inverts); try lra. right. intros f p _. cbn [lm_c h_zt]. rewrite <- RtoC_plus. intros E. apply (f_equal fst) in E. cbn [fst RtoC] in E. lra.
Qed.
(** The same junction: turning the first tone up by one photon step changes its currents by at
    most 2 and 4. *)
Example C173_steps : forall r r' s s', let up := fun n : nat => fun f p i : nat => if (f =? 1)%nat then RtoC (INR n) else RtoC (1 / 3) in
  qtcurrent besselJ (up 1%nat) lm_q lm_resp (FScalar 0) (NbTuple [5; 6]%nat) None = Ok (QReal r) -> qtcurrent besselJ (up 2%nat) lm_q lm_resp (FScalar 0) (NbTuple [5; 6]%nat) None = Ok (QReal r') ->
  qtcurrent besselJ (up 1%nat) lm_q lm_resp (FList [3 / 2]) (NbTuple [5; 6]%nat) None = Ok (QRows [s]) -> qtcurrent besselJ (up 2%nat) lm_q lm_resp (FList [3 / 2]) (NbTuple [5; 6]%nat) None = Ok (QRows [s']) ->
  Rabs (nth 2 r 0 - nth 2 r' 0) <= 2 /\ Cmod (nth 2 s (RtoC 0) - nth 2 s' (RtoC 0))%C <= 4.
Proof.
  intros r r' s s' up E1 E2 E3 E4. assert (AR : args_ok lm_q (NbTuple [5; 6]%nat)) by (apply lm_args; cbn; lia).
  assert (P : photon_steps lm_q (up 1%nat) (up 2%nat) 2 = 1).
  { unfold photon_steps, up. cbn [lm_q q_num_f q_freq rsum_to Nat.eqb]. replace (RtoC (1 / 3) - RtoC (1 / 3))%C with (RtoC 0) by ring. rewrite <- RtoC_minus, !Cmod_R, Rabs_R0. simpl INR. replace (1 - (1 + 1)) with (- (1)) by ring. rewrite Rabs_Ropp, Rabs_R1. field. }
  pose proof (C173_direct lm_q lm_resp _ 1 _ _ r r' 2 AR eq_refl lm_alone_0 ltac:(cbn; lia) (fun x _ => lm_unit x) E1 E2) as H1.
  pose proof (C173_alternating lm_q lm_resp _ 1 _ _ _ _ s s' 2 AR eq_refl lm_alone_2 ltac:(cbn; lia) (fun x _ => lm_unit x) E3 E4) as H2. rewrite P in H1, H2. split; lra.
Qed.
