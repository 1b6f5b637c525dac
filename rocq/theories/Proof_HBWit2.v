(** Further concrete runs: an exact inverse, an overwritten guess, an undefined error
    taken for convergence. *)
From Coq Require Import List ZArith Lia Bool Arith Reals Lra String Permutation ClassicalDescription IndefiniteDescription.
From Coquelicot Require Import Complex.
From Verif Require Import Base Sums Round Bessel Model_QtCurrent Spec_QtCurrent Spec_QtApi Proof_QtCurrent Proof_QtCurrent2 Proof_QtSym
  Proof_QtApi Proof_QtApi2 Proof_QtWit Model_Circuit Proof_Circuit Model_HB Spec_HB Proof_HB Proof_HB2 Proof_HB3 Proof_HB4 Proof_HBWit.
Import ListNotations.
Open Scope C_scope.

(** An exact inverse exists. *)
Definition exact_inv (n : nat) (M : nat -> nat -> R) : option (nat -> nat -> R) :=
  match excluded_middle_informative (exists N, right_inverse n M N) with
  | left H => Some (proj1_sig (constructive_indefinite_description _ H))
  | right _ => None
  end.
Lemma exact_inv_inverts : inverts exact_inv.
Proof.
  split.
  - intros n M N. unfold exact_inv. destruct (excluded_middle_informative _) as [H|H]; [|discriminate]. intros [= <-]. apply proj2_sig.
  - intros n M H. unfold exact_inv. destruct (excluded_middle_informative _) as [H'|H']; [eauto|contradiction].
Qed.

(** ** The caller's guess is overwritten *)
Lemma one_correction J inv : inverts inv -> exists v o rm,
  interpolate_respfn (wit_cct 1) no_resp (NbInt 1) = Ok rm /\
  hb_loop J inv (w1 (RtoC 1) (RtoC 1)) no_resp (NbInt 1) rm 1 (/ 10 ^ 3) 1 (fun _ _ _ => RtoC 5) = (v, Ok o) /\ v 0%nat 0%nat = RtoC 1.
Proof.
  intros Hinv. set (c := w1 (RtoC 1) (RtoC 1)).
  assert (Ha : args_ok (h_q c) (NbInt 1)) by apply w1_args.
  destruct (matrix_built (h_q c) no_resp (NbInt 1) Ha) as [rm ER].
  set (qt := qt_current_for_hb J (h_q c) no_resp (NbInt 1) (Some rm)).
  set (cur := fun w => match qt w with Ok x => x | Err _ => fun _ _ => RtoC 0 end).
  assert (Hcur : forall w, qt w = Ok (cur w)).
  { intros w. unfold cur. destruct (qt_for_hb J (h_q c) no_resp (NbInt 1) rm w Ha ER) as [ij [E _]]. fold qt in E. now rewrite E. }
  assert (H0 : forall w, cur w 0%nat 0%nat = RtoC 0).
  { intros w. unfold cur. destruct (qt_for_hb J (h_q c) no_resp (NbInt 1) rm w Ha ER) as [ij [E H]]. fold qt in E. rewrite E.
    rewrite H by (simpl; lia). unfold no_resp. apply current_at_no_response. }
  set (vt := flat2 1 (clamp_vt (h_vt c))). set (zt := flat2 1 (h_zt c)).
  assert (Hj : forall w, exists js, inv_jacobian 1 1 qt inv vt zt (residual vt zt (cur w) w) w = Ok js).
  { intros w. apply inv_jac_exists; [assumption|assumption|]. intros jac i E Hi.
    destruct (jac_exists 1 qt vt zt cur w Hcur) as [jac' [E' HM]]. rewrite E in E'. injection E' as <-. assert (i = 0%nat) by lia. subst i.
    apply right_inverse_2.
    - etransitivity; [exact (HM 0 0 0 0 0 ltac:(lia) ltac:(lia) ltac:(lia) ltac:(lia))%nat|]. rewrite !H0. unfold part, unit_of. cbn. field. unfold DV. lra.
    - etransitivity; [exact (HM 0 0 0 1 0 ltac:(lia) ltac:(lia) ltac:(lia) ltac:(lia))%nat|]. rewrite !H0. unfold part, unit_of. cbn. field. unfold DV. lra.
    - etransitivity; [exact (HM 0 0 1 0 0 ltac:(lia) ltac:(lia) ltac:(lia) ltac:(lia))%nat|]. rewrite !H0. unfold part, unit_of. cbn. field. unfold DV. lra.
    - etransitivity; [exact (HM 0 0 1 1 0 ltac:(lia) ltac:(lia) ltac:(lia) ltac:(lia))%nat|]. rewrite !H0. unfold part, unit_of. cbn. field. unfold DV. lra. }
  assert (RunOk : forall its w l, exists v o, newton 1 1 qt inv vt zt (/ 10 ^ 3) 1 1 its w l = (v, Ok o)).
  { induction its as [|it its IH]; intros w l; cbn [newton]; [eauto|]. rewrite Hcur. destruct (xle_r _ _); [eauto|]. destruct (_ && _); [eauto|].
    destruct (Hj w) as [js ->]. apply IH. }
  destruct (RunOk (zrange 0 (1 + 1)) (flat3 1 (fun _ _ _ => RtoC 5)) {| l_iter := 0; l_mask := None; l_why := RanOut |}) as [v [o Run]].
  exists v, o, rm. split; [exact ER|]. split; [exact Run|].
  assert (Aff : affine_junction 1 1 qt).
  { exists (fun _ _ => RtoC 0), (fun _ _ _ => RtoC 0), (fun _ _ _ => RtoC 0). intros w. exists (cur w). split; [apply Hcur|].
    intros k i Hk Hi. assert (k = 0%nat) by lia. assert (i = 0%nat) by lia. subst. rewrite H0. cbn. ring. }
  assert (Vt : vt 0%nat = RtoC 1).
  { unfold vt, flat2, c. cbn [h_vt w1]. change (sig_f 1 0) with 1%nat. change (sig_p 1 0) with 1%nat. rewrite clamp_source by lia. cbn. apply source_big, big_1. }
  destruct (affine_run 1 1 qt inv vt zt (/ 10 ^ 3) 1 1 (proj1 Hinv) _ _ _ Aff eq_refl ltac:(lia) Run) as [[-> [_ W]]|[ij [E H]]].
  - exfalso. apply (run_ended 1 1 qt inv vt zt (/ 10 ^ 3) 1 1) in Run; [|lia]. destruct Run as [n [_ Hend]]. rewrite W in Hend.
    destruct Hend as [ij [mask [_ [_ [E [L _]]]]]]. rewrite Hcur in E. injection E as <-. unfold rel_max in L.
    apply (max_rel_last 1 1) with (i := 0%nat) in L; try lia. destruct L as [_ L].
    change (1 - 1)%nat with 0%nat in L. unfold residual in L. rewrite H0, Vt in L. unfold flat3 in L.
    replace (RtoC 1 - zt 0%nat * RtoC 0 - RtoC 5) with (RtoC (-4)) in L by (rewrite Cmult_0_r; unfold Cminus, Cplus, Copp, RtoC; cbn; f_equal; ring).
    rewrite !Cmod_R in L. rewrite Rabs_left, (Rabs_pos_eq 5) in L by lra. lra.
  - specialize (H 0%nat 0%nat ltac:(lia) ltac:(lia)). rewrite Hcur in E. injection E as <-. unfold residual in H. rewrite H0, Vt in H.
    transitivity (RtoC 1 - (RtoC 1 - zt 0%nat * RtoC 0 - v 0%nat 0%nat)); [ring|]. rewrite H. ring.
Qed.

Lemma guess_overwritten J inv : inverts inv -> exists c num_b g g',
  simulates c num_b /\
  r_guess (harmonic_balance J inv c no_resp num_b 1 (/ 10 ^ 3) (Some g) 1 "o" (RtoC 1)) = Some g' /\ g' 1%nat 1%nat 0%nat <> g 1%nat 1%nat 0%nat.
Proof.
  intros Hinv. set (c := w1 (RtoC 1) (RtoC 1)). set (g := (fun _ _ _ => RtoC 5) : arr3).
  assert (Hs : simulates c (NbInt 1)) by (apply w1_simulates, one_neq0). pose proof Hs as [Ha [_ [Hw Hz]]].
  destruct (one_correction J inv Hinv) as [v [o [rm [ER [Run H]]]]].
  destruct (hb_start J inv c no_resp (NbInt 1) 1 (/ 10 ^ 3) g 1 "o" (RtoC 1) rm _ _ Hz Hw ER Run) as [_ [_ S3]].
  exists c, (NbInt 1), g. eexists. split; [assumption|]. split; [exact S3|].
  change (v 0%nat 0%nat <> RtoC 5). rewrite H. intros E. apply (f_equal fst) in E. simpl in E. lra.
Qed.

(** The source voltages of the caller's circuit are overwritten. *)
Lemma source_overwritten J inv : exists c num_b g,
  simulates c num_b /\ h_vt c 1%nat 1%nat = RtoC 0 /\
  h_vt (r_cct (harmonic_balance J inv c no_resp num_b 1 (/ 10 ^ 3) (Some g) 1 "o" (RtoC 1))) 1%nat 1%nat = RtoC (/ 10 ^ 10).
Proof.
  set (c := w1 (RtoC 0) (RtoC 1)). set (g := (fun _ _ _ => RtoC 5) : arr3).
  assert (Hs : simulates c (NbInt 1)) by (apply w1_simulates, one_neq0). pose proof Hs as [Ha [_ [Hw Hz]]].
  exists c, (NbInt 1), g. split; [assumption|]. split; [reflexivity|].
  apply all_zero_false in Hz. unfold harmonic_balance. rewrite Hz, Hw. cbn [negb].
  destruct (interpolate_respfn _ _ _); [|cbn [r_cct h_vt]; unfold clamp_vt; cbn; rewrite Cmod_0; unfold Rltb; destruct (Rlt_dec 0 MIN_VT) as [|N]; [reflexivity|exfalso; apply N; unfold MIN_VT; lra]].
  destruct (run_newton _ _ _ _ _ _ _ _ _ _). cbn [r_cct h_vt]. unfold clamp_vt; cbn; rewrite Cmod_0; unfold Rltb; destruct (Rlt_dec 0 MIN_VT) as [|N]; [reflexivity|exfalso; apply N; unfold MIN_VT; lra].
Qed.

(** ** Two tones, two bias points; the response acts at the first point only *)
Definition q2 (F : R) : qcct :=
  {| q_num_f := 2; q_num_p := 1; q_npts := 2; q_freq := fun _ => F; q_vb := fun i => if (i =? 0)%nat then 0%R else (10 * F)%R |}.
Definition resp2 (F x : R) : C := if Rle_dec (Rabs x) (2 * F) then (0%R, x) else RtoC 0.

Lemma q2_args F : (0 < F)%R -> args_ok (q2 F) (NbInt 1).
Proof. intros HF. unfold args_ok; simpl. repeat split; auto; lia. Qed.
Lemma q2_signal F f p : signal (q2 F) f p -> (f = 1 \/ f = 2)%nat /\ p = 1%nat.
Proof. intros [Hf Hp]. cbn [q_num_f q_num_p q2] in *. lia. Qed.

Lemma small_IZR k : (- 1 <= k <= 1)%Z -> (-1 <= IZR k <= 1)%R.
Proof. intros [H1 H2]. split; [now apply (IZR_le (-1))|now apply (IZR_le k 1)]. Qed.

Lemma q2_second F v f p : (0 < F)%R -> current_at besselJ (q2 F) (resp2 F) (NbInt 1) v f p 1 = RtoC 0.
Proof.
  intros HF. unfold current_at. apply current_zero. intros ks H. unfold tones in H. cbn [q_num_f q2 seq map nbtuple repeat Nat.sub nth q_vb Nat.eqb freqs] in *.
  inversion H as [|t1 k1 ? l1 H1 T1]; subst. inversion T1 as [|t2 k2 ? l2 H2 T2]; subst. inversion T2; subst. cbn [dot t_b tone_of q_freq q2] in *.
  unfold resp2. destruct (Rle_dec _ _) as [L|L]; [|reflexivity]. exfalso.
  assert (B1 : (-1 <= IZR k1 <= 1)%R) by (now apply small_IZR). assert (B2 : (-1 <= IZR k2 <= 1)%R) by (now apply small_IZR).
  assert (- F <= IZR k1 * F)%R by nra. assert (- F <= IZR k2 * F)%R by nra. unfold Rabs in L. destruct (Rcase_abs _) in L; lra.
Qed.

Lemma q2_first a F v : (1 < F)%R -> v 1%nat 1%nat 0%nat = RtoC 0 -> v 2%nat 1%nat 0%nat = RtoC (a * F) ->
  current_at besselJ (q2 F) (resp2 F) (NbInt 1) v 1 1 0 = RtoC (2 * besselJ 0 a * besselJ 1 a * F).
Proof.
  intros HF V1 V2. unfold current_at, tones, freqs. cbn [q_num_f q2 seq map q_num_p q_freq q_vb Nat.sub nbtuple repeat nth Nat.eqb].
  rewrite !tone_of_phase. change (list_max [1%nat; 1%nat]) with 1%nat. set (T1 := Tone 1 _). set (T2 := Tone 1 _).
  rewrite current_idle_hd.
  2:{ intros k Hk. unfold T1 in *. cbn [t_b t_C] in *. apply phase_factor_delta; [lia|lia| |lia].
      intros m n Hm. assert (m = 1%nat) by lia. subst. apply JA_zero; [apply besselJ_like|assumption]. }
  rewrite (current_ext _ _ [Tone 1 (fun k => RtoC (besselZ besselJ k a))] _ _ _ (resp2 F)); [|constructor; [|constructor]|reflexivity].
  2:{ split; [reflexivity|]. intros k Hk. unfold T2 in *. cbn [t_b t_C] in *. rewrite phase_factor_1, cut_in by assumption. apply JA_real; [simpl; lra|exact V2]. }
  rewrite (ac_one_tone_1 1 (fun k => besselZ besselJ k a)); [|lra|simpl; f_equal; ring].
  rewrite (coeff_one_real 1 (fun k => besselZ besselJ k a)). change (sym 1) with [(-1)%Z; 0%Z; 1%Z]. cbn [rsum dot].
  assert (R2 : forall k, (-1 <= k <= 1)%Z -> resp2 F (0 + (IZR k * F + 0))%R = (0%R, (IZR k * F)%R)).
  { intros k Hk. unfold resp2. assert (B1 : (-1 <= IZR k <= 1)%R) by (now apply small_IZR). destruct (Rle_dec _ _) as [L|L].
    - f_equal. ring.
    - exfalso. apply L. apply Rabs_le. split; nra. }
  rewrite !R2 by lia. unfold Re, Im. cbn [fst snd]. unfold within. cbn. unfold besselZ. cbn. change (Pos.to_nat 1) with 1%nat. unfold RtoC. f_equal; ring.
Qed.

Definition c2 (F vt1 zt1 vt2 zt2 : R) : hcct :=
  {| h_q := q2 F; h_vt := fun f p => if (f =? 1)%nat then RtoC vt1 else RtoC vt2;
     h_zt := fun f p => if (f =? 1)%nat then RtoC zt1 else RtoC zt2; h_wvt := true |}.

Lemma nan_swallowed inv : exists c resp num_b g v it,
  simulates c num_b /\
  let call := harmonic_balance besselJ inv c resp num_b 10 (/ 10 ^ 3) (Some g) 1 "x" (RtoC 1) in
  r_ret call = Ok (RetX v it true) /\
  undefined besselJ (r_cct call) resp num_b v 1 1 0 /\
  signal (h_q c) 1 1 /\ (1 < q_npts (h_q c))%nat /\
  v 1%nat 1%nat 1%nat = RtoC 3 /\ residual_at besselJ (r_cct call) resp num_b v 1 1 1 = RtoC (-2).
Proof.
  destruct small_drive as [a [Ha [J0 [J1 _]]]]. set (F := (1 + / a)%R). assert (Hi : (0 < / a)%R) by now apply Rinv_0_lt_compat. assert (HF : (1 < F)%R) by (unfold F; lra).
  set (I0 := (2 * besselJ 0 a * besselJ 1 a * F)%R).
  assert (HI : I0 <> 0%R). { unfold I0. intros E. repeat (apply Rmult_integral in E; destruct E as [E|E]; [|try contradiction; lra]). lra. }
  set (c := c2 F 1 (/ I0) (a * F) 0).
  set (g := (fun f p i => if (f =? 1)%nat then (if (i =? 0)%nat then RtoC 0 else RtoC 3) else RtoC (a * F)) : arr3).
  assert (HaF : (1 <= a * F)%R). { unfold F. replace (a * (1 + / a))%R with (a + 1)%R by (field; lra). lra. }
  assert (Args : args_ok (h_q c) (NbInt 1)) by (apply q2_args; lra).
  assert (Hz : some_impedance c). { exists 1%nat, 1%nat. cbn. split; [lia|]. split; [lia|]. intros E. apply (f_equal fst) in E. simpl in E. apply Rinv_neq_0_compat in HI. contradiction. }
  assert (Hs : simulates c (NbInt 1)). { split; [assumption|]. split; [cbn; lia|]. split; [reflexivity|exact Hz]. }
  destruct (matrix_built (h_q c) (resp2 F) (NbInt 1) Args) as [rm ER].
  destruct (qt_for_hb besselJ (h_q c) (resp2 F) (NbInt 1) rm (flat3 1 g) Args ER) as [ij [E _]].
  set (w := unflat 1 (flat3 1 g)).
  assert (W : forall f i, (f = 1 \/ f = 2)%nat -> w f 1%nat i = g f 1%nat i).
  { intros f i [-> | ->]; reflexivity. }
  assert (Src : forall f, (f = 1 \/ f = 2)%nat -> h_vt (clamped c) f 1%nat = h_vt c f 1%nat).
  { intros f Hf. cbn [h_vt clamped]. rewrite clamp_source by lia. apply source_big. assert (M : (/ 10 ^ 10 <= 1)%R) by lra.
    destruct Hf as [-> | ->]; cbn [h_vt c c2 Nat.eqb]; rewrite Cmod_R, Rabs_pos_eq; lra. }
  set (r := residual_at besselJ (clamped c) (resp2 F) (NbInt 1) w).
  assert (R10 : r 1%nat 1%nat 0%nat = RtoC 0).
  { unfold r, residual_at. rewrite Src by auto. change (h_q (clamped c)) with (q2 F). rewrite (q2_first a F w HF) by reflexivity. fold I0. rewrite (W 1%nat) by auto. cbn.
    rewrite <- RtoC_mult. replace (/ I0 * I0)%R with 1%R by (field; assumption). ring. }
  assert (R11 : r 1%nat 1%nat 1%nat = RtoC (-2)).
  { unfold r, residual_at. rewrite Src by auto. change (h_q (clamped c)) with (q2 F). rewrite q2_second by lra. rewrite (W 1%nat) by auto. cbn.
    rewrite Cmult_0_r. unfold Cminus, Cplus, Copp, RtoC; cbn; f_equal; ring. }
  assert (R2 : forall i, (i < 2)%nat -> r 2%nat 1%nat i = RtoC 0).
  { intros i Hi'. unfold r, residual_at. rewrite Src by auto. rewrite (W 2%nat) by auto. cbn. ring. }
  assert (QR := fun k i => qt_residual besselJ c (resp2 F) (NbInt 1) rm Args ER (flat3 1 g) ij k i E).
  change (q_num_p (h_q c)) with 1%nat in QR. change (q_num_f (h_q c)) with 2%nat in QR. change (q_npts (h_q c)) with 2%nat in QR. fold w r in QR.
  assert (X : xle_r (rel_max 2 2 (flat2 1 (clamp_vt (h_vt c))) (flat2 1 (h_zt c)) ij (flat3 1 g)) (/ 10 ^ 3) = true).
  { unfold rel_max. rewrite max_rel_running, running_S, running_S.
    match goal with |- context [pymax (npmax (map (rel_error ?e _ 0%nat) _)) (running ?M 0)] => 
      assert (N0 : npmax (map (rel_error e (flat3 1 g) 0%nat) (seq 0 2)) = NaN);
      [|assert (L1 : xle_r (npmax (map (rel_error e (flat3 1 g) 1%nat) (seq 0 2))) (/ 10 ^ 3) = true)] end.
    - apply signal_nan; [lia|]. exists 0%nat. split; [lia|]. split; [reflexivity|]. rewrite (QR 0%nat 0%nat) by lia. exact R10.
    - apply signal_le; [lia|]. intros i Hi'. rewrite (QR 1%nat i) by lia. change (sig_f 1 1) with 2%nat. change (sig_p 1 1) with 1%nat. rewrite R2 by assumption.
      change (flat3 1 g 1%nat i) with (RtoC (a * F)). split; [intros Z; apply (f_equal fst) in Z; simpl in Z; lra|]. rewrite Cmod_0, Cmod_R, Rabs_pos_eq by lra. lra.
    - rewrite N0. destruct (npmax (map (rel_error _ (flat3 1 g) 1%nat) (seq 0 2))); exact L1. }
  pose proof (run_immediate 2 2 (qt_current_for_hb besselJ (h_q c) (resp2 F) (NbInt 1) (Some rm)) inv _ _ (/ 10 ^ 3) 1 10 (flat3 1 g) ij ltac:(lia) E X) as Run.
  destruct (hb_start besselJ inv c (resp2 F) (NbInt 1) 10 (/ 10 ^ 3) g 1 "x" (RtoC 1) rm _ _ Hz eq_refl ER Run) as [S1 [S2 _]].
  exists c, (resp2 F), (NbInt 1), g, w, 0%Z. split; [assumption|]. cbv zeta. rewrite S1, S2. split; [reflexivity|].
  split; [split; [reflexivity|exact R10]|]. split; [split; cbn; lia|]. split; [cbn; lia|]. split; [reflexivity|exact R11].
Qed.
