(** The remaining properties of harmonic_balance: return values, side effects, locked
    circuits, affine junctions, signals without impedance. *)
From Coq Require Import List ZArith Lia Bool Arith Reals Lra String.
From Coquelicot Require Import Complex.
From Verif Require Import Base Sums Round Model_QtCurrent Spec_QtCurrent Spec_QtApi Proof_QtCurrent Proof_QtCurrent2 Proof_QtSym
  Proof_QtApi Proof_QtApi2 Model_Circuit Spec_Circuit Proof_Circuit Model_HB Spec_HB Proof_HB Proof_HB2 Proof_HB3 Proof_HB4.
Import ListNotations.
Open Scope C_scope.

(** ** Sums over all signals *)
Definition ssum (F P : nat) (h : nat -> nat -> C) : C := csum (seq 1 F) (fun g => csum (seq 1 P) (fun m => h g m)).
Lemma ssum_ext F P h h' : (forall g m, (1 <= g <= F)%nat -> (1 <= m <= P)%nat -> h g m = h' g m) -> ssum F P h = ssum F P h'.
Proof. intros H. unfold ssum. apply csum_ext. intros g Hg. apply csum_ext. intros m Hm. apply in_seq in Hg, Hm. apply H; lia. Qed.
Lemma ssum_plus F P h h' : ssum F P (fun g m => h g m + h' g m) = ssum F P h + ssum F P h'.
Proof. unfold ssum. rewrite <- csum_plus. apply csum_ext. intros g _. apply csum_plus. Qed.
Lemma ssum_scal F P h c : ssum F P (fun g m => c * h g m) = c * ssum F P h.
Proof. unfold ssum. rewrite <- csum_scal_l. apply csum_ext. intros g _. apply csum_scal_l. Qed.
Lemma ssum_single F P f p h : (1 <= f <= F)%nat -> (1 <= p <= P)%nat -> ssum F P (fun g m => if ((g =? f) && (m =? p))%nat then h g m else RtoC 0) = h f p.
Proof.
  intros Hf Hp. unfold ssum.
  assert (D : forall n k (w : nat -> C), (1 <= k <= n)%nat -> (forall x, (1 <= x <= n)%nat -> x <> k -> w x = RtoC 0) -> csum (seq 1 n) w = w k).
  { induction n as [|n IH]; intros k w Hk H; [lia|]. rewrite seq_S, csum_app. cbn [csum plus]. rewrite Cplus_0_r.
    destruct (Nat.eq_dec k (S n)) as [->|N].
    - rewrite csum_0; [ring|]. intros x Hx. apply in_seq in Hx. apply H; lia.
    - rewrite (IH k) by (try lia; intros; apply H; lia). rewrite (H (S n)) by lia. ring. }
  rewrite (D F f) by (try lia; intros x Hx Nx; apply csum_0; intros m _; apply Nat.eqb_neq in Nx; now rewrite Nx).
  rewrite (D P p) by (try lia; intros x Hx Nx; apply Nat.eqb_neq in Nx; rewrite Nx; now rewrite andb_false_r).
  now rewrite !Nat.eqb_refl.
Qed.

(** ** C37, C41: rows with an affine current *)
Section Aff.
Variable J : nat -> R -> R.
Variables (c : hcct) (resp : R -> C) (num_b : numb) (d : R).
Notation q := (h_q c).
Notation res := (residual_at J c resp num_b).

Lemma step_neq0 : RtoC (/ 10 ^ 3) <> RtoC 0.
Proof. intros H. apply (f_equal fst) in H. cbn in H. lra. Qed.

Lemma affine_correction v v' f p i : affine_row J c resp num_b f p i -> signal q f p -> (i < q_npts q)%nat ->
  corrected J c resp num_b d v v' -> res v' f p i = RtoC (1 - d) * res v f p i.
Proof.
  intros [k [A [B Haff]]] [Hf Hp] Hi [x [Hx Hv']].
  specialize (Hx f p i (conj Hf Hp) Hi). cbv zeta beta in Hx.
  set (L := fun w : arr3 => ssum (q_num_f q) (q_num_p q) (fun g m => A g m * RtoC (Re (w g m i)) + B g m * RtoC (Im (w g m i)))).
  assert (Hres : forall w, res w f p i = h_vt c f p - (k + L w) - w f p i).
  { intros w. unfold residual_at. now rewrite Haff. }
  assert (HL : L v' = L v + RtoC d * L x).
  { unfold L. rewrite <- ssum_scal, <- ssum_plus. apply ssum_ext. intros g m Hg Hm. rewrite (Hv' g m i (conj Hg Hm) Hi). destruct (v g m i), (x g m i).
    unfold Re, Im, Cplus, Cmult, RtoC; cbn [fst snd]. apply injective_projections; cbn [fst snd]; ring. }
  assert (Hb : forall u g m, (1 <= g <= q_num_f q)%nat -> (1 <= m <= q_num_p q)%nat ->
     (res (bumped v g m (u * RtoC (/ 10 ^ 3))) f p i - res v f p i) / RtoC (/ 10 ^ 3) =
     - (A g m * RtoC (Re u) + B g m * RtoC (Im u)) - (if ((g =? f) && (m =? p))%nat then u else RtoC 0)).
  { intros u g m Hg Hm. rewrite !Hres.
    assert (E : L (bumped v g m (u * RtoC (/ 10 ^ 3))) = L v + (A g m * RtoC (Re u) + B g m * RtoC (Im u)) * RtoC (/ 10 ^ 3)).
    { unfold L. rewrite <- (ssum_single (q_num_f q) (q_num_p q) g m (fun g m => (A g m * RtoC (Re u) + B g m * RtoC (Im u)) * RtoC (/ 10 ^ 3)) Hg Hm), <- ssum_plus.
      apply ssum_ext. intros g' m' _ _. unfold bumped. destruct ((g' =? g) && (m' =? m))%nat; destruct (v g' m' i), u;
      unfold Re, Im, Cplus, Cmult, RtoC; cbn [fst snd]; apply injective_projections; cbn [fst snd]; ring. }
    rewrite E. unfold bumped. rewrite (Nat.eqb_sym g f), (Nat.eqb_sym m p). pose proof step_neq0. destruct ((f =? g) && (p =? m))%nat; field; assumption. }
  assert (HX : - L x - x f p i = - res v f p i).
  { rewrite <- Hx.
    transitivity (ssum (q_num_f q) (q_num_p q) (fun g m => RtoC (-1) * (A g m * RtoC (Re (x g m i)) + B g m * RtoC (Im (x g m i))) +
        (if ((g =? f) && (m =? p))%nat then - x g m i else RtoC 0))).
    - rewrite ssum_plus, ssum_scal. rewrite (ssum_single _ _ f p (fun g m => - x g m i) Hf Hp). fold (L x).
      replace (RtoC (-1)) with (- RtoC 1) by (unfold Copp, RtoC; cbn; f_equal; ring). ring.
    - apply ssum_ext. intros g m Hg Hm.
      assert (H1 := Hb (RtoC 1) g m Hg Hm). assert (H2 := Hb Ci g m Hg Hm). rewrite Cmult_1_l in H1. rewrite H1, H2.
      destruct (x g m i) as [xr xi]. destruct ((g =? f) && (m =? p))%nat;
        unfold Re, Im, Cminus, Cplus, Copp, Cmult, RtoC, Ci; cbn [fst snd]; apply injective_projections; cbn [fst snd]; ring. }
  rewrite !Hres, HL, (Hv' f p i (conj Hf Hp) Hi).
  replace (h_vt c f p - (k + (L v + RtoC d * L x)) - (v f p i + x f p i * RtoC d))
    with (h_vt c f p - (k + L v) - v f p i + RtoC d * (- L x - x f p i)) by ring.
  rewrite HX, Hres, RtoC_minus. ring.
Qed.

Lemma affine_corrections n v v' f p i : affine_row J c resp num_b f p i -> signal q f p -> (i < q_npts q)%nat ->
  corrections J c resp num_b d n v v' -> res v' f p i = RtoC ((1 - d) ^ n) * res v f p i.
Proof.
  intros Ha Hs Hi H. induction H as [v v' A|n v v1 v2 H IH St].
  - rewrite <- (residual_at_ext J c resp num_b _ _ A f p i Hs Hi). simpl. ring.
  - rewrite (affine_correction v1 v2 f p i Ha Hs Hi St), IH. cbn [pow]. rewrite RtoC_mult. ring.
Qed.

Lemma no_impedance_affine f p i : h_zt c f p = RtoC 0 -> affine_row J c resp num_b f p i.
Proof.
  intros H. exists (RtoC 0), (fun _ _ => RtoC 0), (fun _ _ => RtoC 0). intros v. rewrite H.
  rewrite csum_0; [ring|]. intros g _. apply csum_0. intros m _. ring.
Qed.

Lemma no_impedance_residual v f p i : h_zt c f p = RtoC 0 -> res v f p i = h_vt c f p - v f p i.
Proof. intros H. unfold residual_at. rewrite H. ring. Qed.
End Aff.

Section Call.
Variable J : nat -> R -> R.
Variable inv : nat -> (nat -> nat -> R) -> option (nat -> nat -> R).
Variables (c : hcct) (resp : R -> C) (num_b : numb) (max_it : Z) (stop : R) (vj0 : option arr3) (damp : R) (zj : C).
Notation q := (h_q c).
Notation call mode := (harmonic_balance J inv c resp num_b max_it stop vj0 damp mode zj).

Lemma sim_parts : simulates c num_b -> args_ok q num_b /\ (1 <= q_npts q)%nat /\ some_impedance c /\ h_wvt c = true.
Proof. intros [A [B [C D]]]. auto. Qed.

Lemma cct_after mode : some_impedance c -> h_wvt c = true -> r_cct (call mode) = clamped c.
Proof.
  intros Hz Hw. apply all_zero_false in Hz. unfold harmonic_balance. rewrite Hz, Hw. cbn [negb].
  destruct (match vj0 with Some a => _ | None => _ end); [|unfold clamped; now rewrite Hw].
  destruct (interpolate_respfn _ _ _); [|unfold clamped; now rewrite Hw]. destruct (run_newton _ _ _ _ _ _ _ _ _ _). unfold clamped. cbn [r_cct]. now rewrite Hw.
Qed.

(** C37: the residual after a run. *)
Lemma affine_call v it flag f p i : simulates c num_b -> (0 <= max_it)%Z -> inverts inv ->
  signal q f p -> (i < q_npts q)%nat -> affine_row J c resp num_b f p i ->
  r_ret (call "x") = Ok (RetX v it flag) ->
  exists n, (n = Z.to_nat it \/ n = Z.to_nat it + 1)%nat /\
    residual_at J (r_cct (call "x")) resp num_b v f p i =
    RtoC ((1 - damp) ^ n) * residual_at J (r_cct (call "x")) resp num_b (start c vj0 zj) f p i.
Proof.
  intros Hs Hm Hinv Hsig Hi Haff H. apply sim_parts in Hs. destruct Hs as [Ha [Hp [Hz Hw]]].
  rewrite (cct_after "x" Hz Hw).
  assert (Haff' : affine_row J (clamped c) resp num_b f p i) by exact Haff.
  pose proof (iterations J inv c resp num_b max_it stop vj0 damp zj v it flag Ha Hp Hz Hm Hinv H) as [_ [_ [I|[I [I2 _]]]]].
  - exists (Z.to_nat it). split; [now left|]. now apply (affine_corrections J (clamped c) resp num_b damp).
  - exists (Z.to_nat it + 1)%nat. split; [now right|]. rewrite I. now apply (affine_corrections J (clamped c) resp num_b damp).
Qed.

(** C34 *)
Lemma same_voltages v it flag : simulates c num_b -> r_ret (call "x") = Ok (RetX v it flag) ->
  r_ret (call "o") = Ok (RetV v) /\ ((0 <= max_it)%Z -> exists mask, r_ret (call "m") = Ok (RetM v mask)).
Proof.
  intros Hs H. apply sim_parts in Hs. destruct Hs as [Ha [Hp [Hz Hw]]].
  assert (Hz' := Hz). apply all_zero_false in Hz. unfold harmonic_balance in *. rewrite Hz, Hw in *. cbn [negb] in *.
  destruct (match vj0 with Some a => _ | None => _ end); [|discriminate].
  destruct (interpolate_respfn _ _ _) as [rm|]; [|discriminate].
  destruct (run_newton _ _ _ _ _ _ _ _ _ _) as [w [o|e]] eqn:Run; cbn [r_ret bind] in *; [|discriminate].
  assert (ER : v = unflat (q_num_p q) w) by (cbn in H; congruence). subst v. split; [reflexivity|].
  intros Hm. apply run_ended in Run; [|assumption]. destruct Run as [n [_ He]].
  assert (exists m, l_mask o = Some m) as [m Em].
  { destruct (l_why o).
    - destruct He as [ij [mask [_ [_ [_ [_ [E _]]]]]]]. eauto.
    - destruct He as [ij [mask [_ [_ [_ [_ [E _]]]]]]]. eauto.
    - destruct He as [E1 E2]. destruct n; [lia|]. destruct E2 as [_ [u [ij [mask [_ [_ [_ [_ [E _]]]]]]]]]. eauto. }
  exists m. cbn. now rewrite Em.
Qed.

Lemma mode_type mode x : simulates c num_b -> r_ret (call mode) = Ok x ->
  match mode, x with
  | "o", RetV _ | "x", RetX _ _ _ | "m", RetM _ _ => True
  | "o", _ | "x", _ | "m", _ => False
  | _, RetNone => True
  | _, _ => False
  end%string.
Proof.
  intros Hs H. apply sim_parts in Hs. destruct Hs as [Ha [Hp [Hz Hw]]]. apply hb_ok in H; [|assumption].
  destruct H as [_ [_ [g [rm [v [o [_ [_ [_ H]]]]]]]]]. unfold ret_of in H.
  destruct (String.eqb_spec mode "o") as [->|N1]; [injection H as <-; exact I|].
  destruct (String.eqb_spec mode "x") as [->|N2]; [injection H as <-; exact I|].
  destruct (String.eqb_spec mode "m") as [->|N3]; [destruct (l_mask o); [|discriminate]; injection H as <-; exact I|].
  injection H as <-.
  destruct mode as [|[[] [] [] [] [] [] [] []] [|? ?]]; try exact I; congruence.
Qed.

(** C35 *)
Lemma circuit_after mode : h_q (r_cct (call mode)) = q /\ h_zt (r_cct (call mode)) = h_zt c /\ h_wvt (r_cct (call mode)) = h_wvt c /\
  (forall f p, (/ 10 ^ 10 <= Cmod (h_vt c f p))%R -> (1 <= f)%nat -> (1 <= p)%nat -> h_vt (r_cct (call mode)) f p = h_vt c f p) /\
  (forall f p, (f = 0 \/ p = 0)%nat -> h_vt c f p = RtoC 0 -> h_vt (r_cct (call mode)) f p = RtoC 0) /\
  (h_wvt c = false -> r_cct (call mode) = c) /\
  ((forall f p, (f <= q_num_f q)%nat -> (p <= q_num_p q)%nat -> h_zt c f p = RtoC 0) -> r_cct (call mode) = c).
Proof.
  assert (D : r_cct (call mode) = c \/ (r_cct (call mode) = clamped c /\ h_wvt c = true /\ all_zero (q_num_f q) (q_num_p q) (h_zt c) = false)).
  { destruct (all_zero (q_num_f q) (q_num_p q) (h_zt c)) eqn:E.
    - left. unfold harmonic_balance. now rewrite E.
    - destruct (h_wvt c) eqn:W; [|left; unfold harmonic_balance; now rewrite E, W]. right. split; [|auto]. apply cct_after; [|assumption]. now apply all_zero_false. }
  destruct D as [D|[D [W Z]]]; rewrite D; [repeat split; auto|].
  split; [reflexivity|]. split; [reflexivity|]. split; [reflexivity|]. split; [|split; [|split]].
  - intros f p H Hf Hp. cbn [h_vt clamped]. rewrite clamp_source by assumption. unfold source. destruct (Rlt_dec _ _); [lra|reflexivity].
  - intros f p H _. cbn [h_vt clamped]. unfold clamp_vt. destruct H as [-> | ->]; [reflexivity|]. destruct (f =? 0)%nat; reflexivity.
  - congruence.
  - intros H. apply all_zero_true in H. congruence.
Qed.
Lemma source_after mode f p : simulates c num_b -> signal q f p -> h_vt (r_cct (call mode)) f p = source (h_vt c f p).
Proof. intros Hs [Hf Hp]. apply sim_parts in Hs. destruct Hs as [_ [_ [Hz Hw]]]. rewrite cct_after by assumption. cbn [h_vt clamped]. apply clamp_source; lia. Qed.

Lemma guess_kept mode : (2 <= q_num_f q)%nat -> (2 <= q_num_p q)%nat -> r_guess (call mode) = vj0.
Proof.
  intros Hf Hp. assert (V : is_view (q_num_f q) (q_num_p q) = false).
  { unfold is_view. destruct (Nat.eqb_spec (q_num_f q) 1), (Nat.eqb_spec (q_num_p q) 1); try lia; reflexivity. }
  unfold harmonic_balance. cbv zeta. destruct (all_zero _ _ _); [reflexivity|]. destruct (negb _); [reflexivity|]. rewrite V.
  destruct (match vj0 with Some a => _ | None => _ end); [|reflexivity]. destruct (interpolate_respfn _ _ _); [|reflexivity].
  destruct (run_newton _ _ _ _ _ _ _ _ _ _). cbn [r_guess]. destruct vj0; reflexivity.
Qed.
(** Otherwise the caller's array ends up holding the returned voltages. *)
Lemma guess_becomes_result v mode g : simulates c num_b -> (q_num_f q = 1 \/ q_num_p q = 1)%nat -> vj0 = Some g -> mode = "o"%string ->
  r_ret (call mode) = Ok (RetV v) ->
  exists g', r_guess (call mode) = Some g' /\ agree q g' v /\ (forall f p i, (f = 0 \/ p = 0)%nat -> g' f p i = g f p i).
Proof.
  intros Hs Hv E Em H. apply sim_parts in Hs. destruct Hs as [Ha [Hp [Hz Hw]]]. subst vj0 mode.
  assert (V : is_view (q_num_f q) (q_num_p q) = true).
  { unfold is_view. destruct Hv as [-> | ->]; [reflexivity|]. apply orb_true_r. }
  apply all_zero_false in Hz. unfold harmonic_balance in *. rewrite Hz, Hw, V in *. cbn [negb] in *.
  destruct (interpolate_respfn _ _ _) as [rm|]; [|discriminate].
  destruct (run_newton _ _ _ _ _ _ _ _ _ _) as [w [o|e]] eqn:Run; cbn [r_ret r_guess bind] in *; [|discriminate].
  eexists. split; [reflexivity|]. assert (Ev : v = unflat (q_num_p q) w) by (cbn in H; congruence). rewrite Ev. split.
  - intros f p i [Hf Hp'] _. unfold write_back, unflat. reflexivity || (destruct f; [lia|]; destruct p; [lia|]; reflexivity).
  - intros f p i [-> | ->]; unfold write_back; [reflexivity|]. now rewrite andb_false_r.
Qed.

(** C39 *)
Lemma converged_accepted v it stop' : simulates c num_b -> (0 <= max_it)%Z -> inverts inv -> (stop < stop')%R ->
  r_ret (call "x") = Ok (RetX v it true) ->
  everywhere q (fun f p i => v f p i <> RtoC 0) ->
  check_hb_error J v (r_cct (call "x")) resp num_b stop' = Ok tt.
Proof.
  intros Hs Hm Hinv Hlt H Hnz. apply sim_parts in Hs. destruct Hs as [Ha [Hp [Hz Hw]]]. rewrite (cct_after "x" Hz Hw).
  pose proof (flag_converged J inv c resp num_b max_it stop vj0 damp zj v it Ha Hp Hz Hm Hinv H) as [_ Hb].
  assert (Hb' : balanced J (clamped c) resp num_b stop v). { apply Hb. intros f p i Hsig Hi [U _]. exact (Hnz f p i Hsig Hi U). }
  apply (proj1 (check_spec J (clamped c) resp num_b stop' v Ha Hp)). intros f p i Hsig Hi. specialize (Hnz f p i Hsig Hi). split; [assumption|].
  eapply Rle_lt_trans; [apply (Hb' f p i Hsig Hi)|]. apply Rmult_lt_compat_r; [|assumption]. now apply Cmod_gt_0.
Qed.

(** C41 *)
Lemma no_impedance_converged v it f p i : simulates c num_b -> (0 <= max_it)%Z -> inverts inv -> stop = 0%R ->
  signal q f p -> (i < q_npts q)%nat -> h_zt c f p = RtoC 0 ->
  everywhere q (fun f p i => v f p i <> RtoC 0) ->
  r_ret (call "x") = Ok (RetX v it true) -> v f p i = source (h_vt c f p).
Proof.
  intros Hs Hm Hinv Hst Hsig Hi Hz0 Hnz H. assert (Hs' := Hs). apply sim_parts in Hs. destruct Hs as [Ha [Hp [Hz Hw]]].
  pose proof (flag_converged J inv c resp num_b max_it stop vj0 damp zj v it Ha Hp Hz Hm Hinv H) as [_ Hb].
  assert (Hb' : balanced J (clamped c) resp num_b stop v). { apply Hb. intros f' p' i' Hsig' Hi' [U _]. exact (Hnz f' p' i' Hsig' Hi' U). }
  specialize (Hb' f p i Hsig Hi). cbv beta in Hb'. rewrite Hst, Rmult_0_l in Hb'. rewrite (no_impedance_residual J (clamped c)) in Hb' by assumption.
  assert (E : h_vt (clamped c) f p - v f p i = RtoC 0). { apply Cmod_0_iff. pose proof (Cmod_ge_0 (h_vt (clamped c) f p - v f p i)). lra. }
  destruct Hsig as [Hf Hp']. cbn [h_vt clamped] in E. rewrite clamp_source in E by lia.
  transitivity (source (h_vt c f p) - (source (h_vt c f p) - v f p i)); [ring|]. rewrite E. ring.
Qed.

(** An undamped run that makes at least one correction ends there, converged or not. *)
Lemma no_impedance_reached v it flag f p i : simulates c num_b -> (0 <= max_it)%Z -> inverts inv -> damp = 1%R -> (1 <= it)%Z ->
  signal q f p -> (i < q_npts q)%nat -> h_zt c f p = RtoC 0 ->
  r_ret (call "x") = Ok (RetX v it flag) -> v f p i = source (h_vt c f p).
Proof.
  intros Hs Hm Hinv Hd Hit Hsig Hi Hz0 H. assert (Hs' := Hs). apply sim_parts in Hs. destruct Hs as [Ha [Hp [Hz Hw]]].
  destruct (affine_call v it flag f p i Hs' Hm Hinv Hsig Hi) as [n [Hn E]]; [now apply no_impedance_affine|assumption|].
  rewrite cct_after in E by assumption. rewrite Hd in E. replace (1 - 1)%R with 0%R in E by ring. rewrite pow_i in E by lia. rewrite Cmult_0_l in E.
  rewrite (no_impedance_residual J (clamped c)) in E by assumption. destruct Hsig as [Hf Hp']. cbn [h_vt clamped] in E. rewrite clamp_source in E by lia.
  transitivity (source (h_vt c f p) - (source (h_vt c f p) - v f p i)); [ring|]. rewrite E. ring.
Qed.

Lemma no_impedance_at_all mode : (forall f p, (f <= q_num_f q)%nat -> (p <= q_num_p q)%nat -> h_zt c f p = RtoC 0) ->
  exists v, r_ret (call mode) = Ok (RetV v) /\ forall f p i, v f p i = h_vt c f p.
Proof. intros H. apply all_zero_true in H. unfold harmonic_balance. rewrite H. eexists. split; [reflexivity|]. reflexivity. Qed.
End Call.

(** ** C36 *)
Section Locked.
Variable J : nat -> R -> R.
Variable inv : nat -> (nat -> nat -> R) -> option (nat -> nat -> R).
Lemma locked_refused cc resp num_b max_it stop vj0 damp mode zj : some_impedance (of_circ cc) ->
  r_ret (harmonic_balance J inv (of_circ (lock cc)) resp num_b max_it stop vj0 damp mode zj) = Err ValueError.
Proof.
  intros Hz. assert (Hz' : some_impedance (of_circ (lock cc))) by exact Hz. apply all_zero_false in Hz'. unfold harmonic_balance. rewrite Hz'. reflexivity.
Qed.
Lemma locked_trivial cc resp num_b max_it stop vj0 damp mode zj : 
  (forall f p, (f <= c_num_f cc)%nat -> (p <= c_num_p cc)%nat -> h_zt (of_circ cc) f p = RtoC 0) ->
  r_ret (harmonic_balance J inv (of_circ (lock cc)) resp num_b max_it stop vj0 damp mode zj) =
  r_ret (harmonic_balance J inv (of_circ cc) resp num_b max_it stop vj0 damp mode zj).
Proof.
  intros H. assert (H1 := proj1 (all_zero_true (of_circ cc)) H). assert (H2 := proj1 (all_zero_true (of_circ (lock cc))) H).
  unfold harmonic_balance. rewrite H1, H2. reflexivity.
Qed.
Lemma unlock_lock cc resp num_b max_it stop vj0 damp mode zj : w_vt cc = true ->
  r_ret (harmonic_balance J inv (of_circ (unlock (lock cc))) resp num_b max_it stop vj0 damp mode zj) =
  r_ret (harmonic_balance J inv (of_circ cc) resp num_b max_it stop vj0 damp mode zj).
Proof. intros H. assert (E : of_circ (unlock (lock cc)) = of_circ cc) by (unfold of_circ; cbn; now rewrite H). now rewrite E. Qed.
End Locked.

(** ** C38 *)
Lemma k_to_fp_spec P k : (1 <= P)%nat -> k_to_fp k P = (INR (sig_f P k), sig_p P k).
Proof.
  intros HP. unfold k_to_fp, sig_f, sig_p. f_equal. 
  assert (E : (Z.of_nat k + Z.of_nat P - Z.of_nat (k mod P + 1) + 1 = Z.of_nat (k / P + 1) * Z.of_nat P)%Z).
  { pose proof (Nat.div_mod k P ltac:(lia)). nia. }
  rewrite E, mult_IZR, <- !INR_IZR_INZ. field. apply not_0_INR. lia.
Qed.

Lemma numbering F P : (1 <= P)%nat ->
  (forall f p, (1 <= f <= F)%nat -> (1 <= p <= P)%nat -> exists k, (k < F * P)%nat /\ k_to_fp k P = (INR f, p)) /\
  (forall k, (k < F * P)%nat -> exists f p, (1 <= f <= F)%nat /\ (1 <= p <= P)%nat /\ k_to_fp k P = (INR f, p)) /\
  (forall k k', k_to_fp k P = k_to_fp k' P -> k = k').
Proof.
  intros HP. repeat split.
  - intros f p Hf Hp. exists (sig_k P f p). split; [now apply sig_k_bound|]. rewrite k_to_fp_spec by assumption. 
    destruct (sig_k_fp P f p) as [-> ->]; [lia|lia|reflexivity].
  - intros k Hk. destruct (sig_range F P k Hk) as [H1 H2]. exists (sig_f P k), (sig_p P k). rewrite k_to_fp_spec by assumption. auto.
  - intros k k' E. rewrite !k_to_fp_spec in E by assumption. injection E as E1 E2. apply INR_eq in E1. rewrite <- (sig_fp_k P k HP), <- (sig_fp_k P k' HP). congruence.
Qed.

Lemma pairing P (a : arr3) f p i : (1 <= f)%nat -> (1 <= p <= P)%nat -> unflat P (flat3 P a) f p i = a f p i /\
  (forall k, flat3 P (unflat P (fun k i => a k 0%nat i)) k i = a k 0%nat i).
Proof.
  intros Hf Hp. split; [now apply unflat_flat|]. intros k. unfold flat3. now rewrite unflat_k by lia.
Qed.
