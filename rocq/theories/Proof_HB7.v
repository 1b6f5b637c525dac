(** Power, restarts and single bias points in harmonic_balance. *)
From Coq Require Import List ZArith Lia Bool Arith Reals Lra String Psatz.
From Coquelicot Require Import Complex.
From Verif Require Import Base Sums Round Model_QtCurrent Spec_QtCurrent Spec_QtApi Proof_QtCurrent Proof_QtCurrent2 Proof_QtSym
  Proof_QtApi Proof_QtApi2 Model_Circuit Proof_Circuit Proof_Print2 Model_HB Spec_HB Spec_HB2 Proof_HB Proof_HB2 Proof_HB3 Proof_HB4 Proof_HB5 Proof_HB6.
Import ListNotations.
Local Notation length := List.length.
Open Scope C_scope.

(** ** C126 *)
Lemma power_le (a z i : C) : (0 < Re z)%R -> (mean_power (a - z * i)%C i <= Cmod a ^ 2 / (8 * Re z))%R.
Proof.
  intros Hz. destruct a as [a b], z as [x y], i as [u w]. unfold mean_power, Cmod, Re in *. cbn [fst snd] in *. rewrite pow2_sqrt by nra.
  cbn [Cmult Cminus Cplus Copp Cconj fst snd].
  apply Rmult_le_reg_r with (8 * x)%R; [lra|]. unfold Rdiv. rewrite (Rmult_assoc (a ^ 2 + b ^ 2)), Rinv_l, Rmult_1_r by lra.
  assert (0 <= (a - 2 * x * u) ^ 2 + (b - 2 * x * w) ^ 2)%R by (assert (A := pow2_ge_0 (a - 2 * x * u)); assert (B := pow2_ge_0 (b - 2 * x * w)); lra).
  nra.
Qed.
Lemma balanced_power J c resp num_b e v f p i : balanced J c resp num_b e v -> signal (h_q c) f p -> (i < q_npts (h_q c))%nat ->
  (0 < Re (h_zt c f p))%R ->
  (mean_power (v f p i) (current_at J (h_q c) resp num_b v f p i) <= (Cmod (h_vt c f p) + e * Cmod (v f p i)) ^ 2 / (8 * Re (h_zt c f p)))%R.
Proof.
  intros B S I Hz. specialize (B f p i S I). cbv beta in B. set (r := residual_at J c resp num_b v f p i) in *.
  assert (E : v f p i = (h_vt c f p - r) - h_zt c f p * current_at J (h_q c) resp num_b v f p i) by (unfold r, residual_at; ring).
  rewrite E at 1. eapply Rle_trans; [apply power_le, Hz|]. apply Rmult_le_compat_r; [apply Rlt_le, Rinv_0_lt_compat; lra|].
  apply pow_incr. split; [apply Cmod_ge_0|]. unfold Cminus. eapply Rle_trans; [apply Cmod_triangle|]. rewrite Cmod_opp. lra.
Qed.
Lemma pyget_nat {A} (l : list A) f x : pyget l (Z.of_nat f) = Ok x -> nth_error l f = Some x.
Proof.
  unfold pyget. destruct (pyidx _ _) as [j|] eqn:E; [|discriminate]. apply pyidx_nat in E. subst j.
  destruct (nth_error l f); [congruence|discriminate].
Qed.
Lemma get2_nth {A} (m : list (list A)) f p x d : get2 m (Z.of_nat f) (Z.of_nat p) = Ok x -> nth p (nth f m []) d = x.
Proof.
  unfold get2. intros H. apply bind_ok in H. destruct H as [row [H1 H2]]. apply pyget_nat in H1, H2.
  rewrite (nth_error_nth _ _ _ H1). now apply nth_error_nth.
Qed.
Lemma available_circ cc vgap rn f p w : c_vgap cc = Some vgap -> c_rn cc = Some rn -> (0 < rn)%R -> (0 < Re (h_zt (of_circ cc) f p))%R ->
  available_power cc (Z.of_nat f) (Z.of_nat p) "W" = Ok (XFin w) ->
  w = (vgap ^ 2 / rn * (Cmod (h_vt (of_circ cc) f p) ^ 2 / (8 * Re (h_zt (of_circ cc) f p))))%R.
Proof.
  intros Hg Hr Hr0 Hz. unfold available_power. rewrite Hg, Hr. intros H. apply bind_ok in H. destruct H as [vt [Evt H]].
  apply bind_ok in H. destruct H as [zt [Ezt H]]. cbn [of_circ h_zt h_vt] in *. rewrite (get2_nth _ _ _ _ (RtoC 0) Ezt) in *. rewrite (get2_nth _ _ _ _ None Evt) in *.
  cbv zeta in H. change (Model_Circuit.lower "W" =? "w")%string with true in H. cbv iota in H. injection H as H.
  destruct (Reqb_spec (Re zt * rn) 0) as [E|E]; [exfalso; nra|]. destruct vt as [v|]; [|discriminate]. injection H as <-.
  rewrite Cmod_mult, Cmod_R.
  transitivity ((Rabs vgap * Rabs vgap) / rn * (Cmod v ^ 2 / (8 * Re zt)))%R; [field; split; lra|].
  rewrite <- Rabs_mult, Rabs_pos_eq by nra. field. split; lra.
Qed.
Lemma power_bound J inv cc resp num_b max_it stop vj0 damp zj v it vgap rn f p i w :
  let c := of_circ cc in
  let call := harmonic_balance J inv c resp num_b max_it stop vj0 damp "x" zj in
  simulates c num_b -> (0 <= max_it)%Z -> inverts inv -> r_ret call = Ok (RetX v it true) ->
  everywhere (h_q c) (fun f p i => ~ undefined J (r_cct call) resp num_b v f p i) ->
  c_vgap cc = Some vgap -> c_rn cc = Some rn -> (0 < rn)%R ->
  signal (h_q c) f p -> (i < q_npts (h_q c))%nat -> (0 < Re (h_zt c f p))%R -> (/ 10 ^ 10 <= Cmod (h_vt c f p))%R ->
  available_power cc (Z.of_nat f) (Z.of_nat p) "W" = Ok (XFin w) ->
  (vgap ^ 2 / rn * mean_power (v f p i) (current_at J (h_q c) resp num_b v f p i) <= w * (1 + stop * Cmod (v f p i) / Cmod (h_vt c f p)) ^ 2)%R.
Proof.
  intros c call Hs Hm Hi Hr Hu Hg Hrn Hrn0 S I Hz Hv Hw.
  assert (B := converged_balanced J inv c resp num_b max_it stop vj0 damp zj v it Hs Hm Hi Hr Hu).
  apply sim_parts in Hs as Hp. destruct Hp as [Ha [Hp [Hzz Hwt]]].
  rewrite (cct_after J inv c resp num_b max_it stop vj0 damp zj "x" Hzz Hwt) in B.
  assert (B' := balanced_power J (clamped c) resp num_b stop v f p i B S I). cbn [clamped h_q h_zt h_vt] in B'. specialize (B' Hz).
  destruct S as [Sf Sp]. rewrite clamp_source in B' by lia.
  assert (Es : source (h_vt c f p) = h_vt c f p) by (unfold source; destruct (Rlt_dec _ _); [lra|reflexivity]). rewrite Es in B'.
  rewrite (available_circ cc vgap rn f p w Hg Hrn Hrn0 Hz Hw). fold c.
  assert (V0 : (0 < Cmod (h_vt c f p))%R) by lra.
  rewrite Rmult_assoc. apply Rmult_le_compat_l.
  { apply Rmult_le_pos; [apply pow2_ge_0|apply Rlt_le, Rinv_0_lt_compat; lra]. }
  eapply Rle_trans; [exact B'|]. apply Req_le. field. split; lra.
Qed.

(** ** C128 *)
Lemma restart J inv c resp num_b max_it stop vj0 damp zj v it max_it' stop' damp' zj' :
  let call := harmonic_balance J inv c resp num_b max_it stop vj0 damp "x" zj in
  let call' := harmonic_balance J inv (r_cct call) resp num_b max_it' stop' (Some v) damp' "x" zj' in
  simulates c num_b -> (0 <= max_it)%Z -> (0 <= max_it')%Z -> (0 <= stop <= stop')%R -> inverts inv ->
  r_ret call = Ok (RetX v it true) -> everywhere (h_q c) (fun f p i => v f p i <> RtoC 0) ->
  (exists v', r_ret call' = Ok (RetX v' 0 (0 <? max_it')%Z) /\ agree (h_q c) v v') /\
  (forall f p, h_vt (r_cct call') f p = h_vt (r_cct call) f p).
Proof.
  intros call call' Hs Hm Hm' Hst Hi Hr Hnz. apply sim_parts in Hs as Hp. destruct Hp as [Ha [Hp [Hz Hw]]].
  assert (B : balanced J (r_cct call) resp num_b stop v).
  { apply (converged_balanced J inv c resp num_b max_it stop vj0 damp zj v it Hs Hm Hi Hr). intros f p i S I [U _]. now apply (Hnz f p i S I). }
  assert (Ec : r_cct call = clamped c) by (apply cct_after; assumption).
  assert (Hs' : simulates (r_cct call) num_b) by (rewrite Ec; exact Hs).
  apply sim_parts in Hs' as Hp'. destruct Hp' as [Ha' [Hp' [Hz' Hw']]].
  assert (Ec' : r_cct call' = clamped (r_cct call)) by (apply cct_after; assumption).
  assert (Ev : forall f p, h_vt (r_cct call') f p = h_vt (r_cct call) f p).
  { intros f p. rewrite Ec', Ec. cbn [clamped h_vt]. unfold clamp_vt at 1. destruct ((f =? 0) || (p =? 0))%nat eqn:E0.
    - unfold clamp_vt. now rewrite E0.
    - destruct (Rltb_spec (Cmod (clamp_vt (h_vt c) f p)) MIN_VT) as [H|H]; [|reflexivity]. exfalso. revert H. unfold clamp_vt. rewrite E0.
      destruct (Rltb_spec (Cmod (h_vt c f p)) MIN_VT) as [H|H]; intros H'; [|lra].
      rewrite Cmod_R, Rabs_pos_eq in H'; [lra|]. unfold MIN_VT. apply Rlt_le, Rinv_0_lt_compat. apply pow_lt. lra. }
  split; [|exact Ev].
  destruct (met_target_ends J inv (r_cct call) resp num_b max_it' stop' v damp' "x" zj' Hs' Hm' ltac:(lra)) as [v' [R A]].
  - rewrite Ec. exact Hnz.
  - intros f p i S I. fold call'. assert (E : residual_at J (r_cct call') resp num_b v f p i = residual_at J (r_cct call) resp num_b v f p i).
    { unfold residual_at. rewrite Ev. rewrite Ec'. reflexivity. }
    rewrite E. fold call' in S, I. rewrite Ec', Ec in S, I. assert (B' := B). rewrite Ec in B'. specialize (B' f p i S I). cbv beta in B'. rewrite Ec.
    eapply Rle_trans; [exact B'|]. apply Rmult_le_compat_r; [apply Cmod_ge_0|lra].
  - reflexivity.
  - exists v'. split; [exact R|]. rewrite Ec in A. exact A.
Qed.
