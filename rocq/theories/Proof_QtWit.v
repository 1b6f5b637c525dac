(** One-tone closed forms: agreement with the Tucker-theory helpers, and
    concrete witnesses. *)
From Coq Require Import List ZArith Lia Bool Arith Reals Lra Permutation.
From Coquelicot Require Import Complex.
From Verif Require Import Base Sums Round Bessel Model_QtCurrent Spec_QtCurrent Spec_QtApi Proof_QtCurrent
  Proof_QtCurrent2 Proof_QtSym Proof_QtApi Proof_QtApi2 Model_Tucker.
Import ListNotations.
Open Scope C_scope.

Fixpoint rsum {A} (l : list A) (f : A -> R) : R := match l with [] => 0%R | x :: l' => (f x + rsum l' f)%R end.

Lemma rsum_ext {A} (l : list A) f g : (forall x, In x l -> f x = g x) -> rsum l f = rsum l g.
Proof. induction l; intros H; simpl; [reflexivity|]. rewrite H by now left. f_equal. apply IHl. intros; apply H; now right. Qed.

Lemma Im_rsum {A} (l : list A) f : Im (csum l f) = rsum l (fun x => Im (f x)).
Proof. induction l; simpl; [reflexivity|]. now rewrite <- IHl. Qed.
Lemma Re_rsum {A} (l : list A) f : Re (csum l f) = rsum l (fun x => Re (f x)).
Proof. induction l; simpl; [reflexivity|]. now rewrite <- IHl. Qed.

Lemma fold_left_rsum {A} (l : list A) f acc : fold_left (fun s x => (s + f x)%R) l acc = (acc + rsum l f)%R.
Proof. revert acc. induction l as [|x l IH]; intros acc; simpl; [ring|]. rewrite IH. ring. Qed.

Lemma rsum_pos_term {A} (l : list A) f x : (forall y, In y l -> (0 <= f y)%R) -> In x l -> (0 < f x)%R -> (0 < rsum l f)%R.
Proof.
  intros H. induction l as [|y l IH]; intros Hin Hx; [destruct Hin|]. simpl.
  assert (Hl : (0 <= rsum l f)%R).
  { clear -H. induction l as [|z l IH]; simpl; [lra|]. assert (0 <= f z)%R by (apply H; right; now left).
    assert (0 <= rsum l f)%R by (apply IH; intros u [Hu|Hu]; apply H; [now left|right; now right]). lra. }
  destruct Hin as [->|Hin]; [lra|]. assert (0 <= f y)%R by (apply H; now left).
  assert (0 < rsum l f)%R by (apply IH; auto; intros; apply H; now right). lra.
Qed.

Lemma Cmod2 z : (fst z * fst z + snd z * snd z = Cmod z ^ 2)%R.
Proof. simpl. rewrite Rmult_1_r. symmetry. apply Cmod_sq. Qed.

(** DC current of one tone. *)
Lemma dc_one_tone P b C f vb resp w : (/ 10000 < f)%R -> round4 w = 0%R ->
  current P [Tone b C] [f] vb resp w = RtoC (rsum (sym b) (fun k => Cmod (C k) ^ 2 * Im (resp (vb + IZR k * f)%R)))%R.
Proof.
  intros Hf Hw. unfold current. cbn [length].
  rewrite csum_index_S. rewrite (csum_single (sym P) 0%Z).
  - rewrite csum_index_0. cbn [dot]. unfold same_freq. replace (0 * f + 0)%R with 0%R by ring. rewrite round4_0, Hw.
    destruct (Req_EM_T 0 0) as [_|N]; [|now contradiction N]. unfold coeff. cbn [map forallb Z.eqb andb rs_sum t_b t_C].
    rewrite Im_rsum. f_equal. apply rsum_ext. intros k Hk. apply in_sym in Hk.
    rewrite Z.add_0_r, cut_in by assumption. cbn [dot]. rewrite Rplus_0_r. rewrite <- Cmod2.
    destruct (C k) as [x y], (resp (vb + IZR k * f)%R) as [u v]. unfold Cmult, Cconj, Im; simpl. ring.
  - apply sym_NoDup.
  - apply in_sym. lia.
  - intros a _ Ha. rewrite csum_index_0. cbn [dot]. unfold same_freq. destruct (Req_EM_T _ _) as [E|]; [|reflexivity].
    exfalso. apply Ha. apply (multiples_distinct f); [assumption|]. rewrite Rmult_0_l, round4_0.
    rewrite Rplus_0_r in E. now rewrite E.
Qed.

(** ** Bessel coefficients of a real drive, either sign *)

Lemma besselZ_neg_arg n x : besselZ besselJ n (- x) = ((-1) ^ Z.abs_nat n * besselZ besselJ n x)%R.
Proof.
  unfold besselZ. destruct (Z.ltb_spec n 0); rewrite besselJ_opp.
  - replace (Z.abs_nat n) with (Z.to_nat (- n)) by lia. ring.
  - replace (Z.abs_nat n) with (Z.to_nat n) by lia. ring.
Qed.

Lemma JA_real vj freq f i n alpha : (0 < freq f)%R -> vj f 1%nat i = RtoC (alpha * freq f) ->
  JA besselJ vj freq f 1 i n = RtoC (besselZ besselJ n alpha).
Proof.
  intros Hf H. unfold JA. rewrite H, Cmod_R. simpl INR. rewrite Rmult_1_l, Rabs_mult, (Rabs_pos_eq (freq f)) by lra.
  replace (Rabs alpha * freq f / freq f)%R with (Rabs alpha) by (field; lra).
  unfold jacobi_anger.
  assert (A : forall x, (0 <= x)%R -> cis (- (IZR n * angle (RtoC x))) = RtoC 1).
  { intros x Hx. destruct (Req_dec x 0) as [->|Nx].
    - unfold angle, Reqb. rewrite Cmod_0. destruct (Req_EM_T 0 0) as [_|N]; [|now contradiction N].
      rewrite Rmult_0_r, Ropp_0. apply cis_0.
    - unfold angle, Reqb, Rleb. rewrite Cmod_R, Rabs_pos_eq by assumption. destruct (Req_EM_T x 0); [contradiction|]. simpl fst. simpl snd.
      destruct (Rle_dec 0 0) as [_|N]; [|exfalso; apply N; lra].
      replace (x / x)%R with 1%R by (field; assumption). rewrite acos_1, Rmult_0_r, Ropp_0. apply cis_0. }
  destruct (Rle_dec 0 alpha) as [Ha|Ha].
  - rewrite Rabs_pos_eq by assumption. rewrite A by (apply Rmult_le_pos; lra). ring.
  - rewrite Rabs_left by lra.
    assert (E : cis (- (IZR n * angle (RtoC (alpha * freq f)))) = RtoC ((-1) ^ Z.abs_nat n)).
    { replace (RtoC (alpha * freq f)) with (cis PI * RtoC (- (alpha * freq f))).
      - rewrite !Ropp_mult_distr_l, <- opp_IZR.
        rewrite (cis_Z (- n) (angle (cis PI * RtoC (- alpha * freq f))) (PI + angle (RtoC (- alpha * freq f)))).
        + rewrite Rmult_plus_distr_l, cis_add. rewrite opp_IZR, <- !Ropp_mult_distr_l, cis_PI_Z.
          rewrite !Ropp_mult_distr_l. rewrite <- (Ropp_mult_distr_l (IZR n)). rewrite A; [ring|].
          apply Rmult_le_pos; lra.
        + apply angle_rot. intros E. apply RtoC_inj in E. apply Rmult_integral in E. lra.
      - unfold cis. rewrite cos_PI, sin_PI. unfold Cmult, RtoC; simpl. f_equal; ring. }
    rewrite E, besselZ_neg_arg, <- RtoC_mult. f_equal.
    assert (S1 : forall k, ((-1) ^ k * (-1) ^ k = 1)%R) by (intros k; rewrite <- Rpow_mult_distr, <- (pow1 k); f_equal; ring).
    transitivity (((-1) ^ Z.abs_nat n * (-1) ^ Z.abs_nat n) * besselZ besselJ n alpha)%R; [ring|]. rewrite S1. ring.
Qed.

(** ** C17 *)

Lemma real_tone vj cct num_b alpha i : q_num_f cct = 1%nat -> q_num_p cct = 1%nat -> (0 < q_freq cct 1)%R ->
  vj 1%nat 1%nat i = RtoC (alpha * q_freq cct 1) ->
  Forall2 tone_eq (tones besselJ vj cct (NbInt num_b) i) [Tone num_b (fun k => RtoC (besselZ besselJ k alpha))].
Proof.
  intros HF HP Hf Hv. unfold tones. rewrite HF, HP. cbn [seq map nbtuple repeat Nat.sub nth].
  constructor; [|constructor]. split; [reflexivity|]. rewrite tone_of_phase. cbn [t_b t_C]. intros k Hk.
  rewrite phase_factor_1, cut_in by assumption. now apply JA_real.
Qed.

Lemma tucker_dc vj cct resp num_b alpha row : args_ok cct (NbInt num_b) -> q_num_f cct = 1%nat -> q_num_p cct = 1%nat ->
  (/ 10000 < q_freq cct 1)%R ->
  (forall i, (i < q_npts cct)%nat -> vj 1%nat 1%nat i = RtoC (alpha * q_freq cct 1)) ->
  qtcurrent besselJ vj cct resp (FScalar 0) (NbInt num_b) None = Ok (QReal row) ->
  row = find_pumped_iv_curve besselJ (fun v => Im (resp v)) (tab (q_npts cct) (q_vb cct)) (q_freq cct 1) alpha num_b.
Proof.
  intros Ha HF HP Hf Hv. rewrite qtcurrent_spec by auto. unfold Reqb. rewrite round4_0.
  destruct (Req_EM_T 0 0) as [_|N]; [|now contradiction N]. intros E. inversion E; subst row. clear E.
  unfold spec_row, find_pumped_iv_curve. rewrite !tab_map. apply tab_ext. intros i Hi.
  rewrite (current_ext _ _ _ _ _ _ resp _ (real_tone vj cct num_b alpha i HF HP ltac:(lra) (Hv i Hi)) (fun _ => eq_refl)).
  unfold freqs. rewrite HF. cbn [seq map]. rewrite dc_one_tone by (auto using round4_0). simpl Re.
  unfold pumped_iv. rewrite fold_left_rsum, Rplus_0_l. apply rsum_ext. intros k _. rewrite Cmod_R. f_equal. apply pow2_abs.
Qed.

Lemma cut_real b (g : Z -> R) k : cut b (fun k => RtoC (g k)) k = RtoC (if within b k then g k else 0%R).
Proof. rewrite cut_within. destruct (within b k); reflexivity. Qed.

(** Re and Im of the edge-truncated sums, against the untruncated ones. *)
Lemma rsum_sub_single b (f g : Z -> R) k0 : In k0 (sym b) -> (forall k, In k (sym b) -> k <> k0 -> f k = g k) ->
  rsum (sym b) f = (rsum (sym b) g + (f k0 - g k0))%R.
Proof.
  pose proof (sym_NoDup b) as ND. revert ND. generalize (sym b). induction l as [|k l IH]; intros ND Hin H; [destruct Hin|].
  inversion ND; subst. simpl. destruct Hin as [->|Hin].
  - rewrite (rsum_ext l f g); [ring|]. intros k Hk. apply H; [now right|]. intros ->; contradiction.
  - rewrite IH; auto; [|intros; apply H; [now right|assumption]].
    rewrite (H k); [ring|now left|]. intros ->; contradiction.
Qed.

Lemma rsum_plus {A} (l : list A) f g : rsum l (fun x => f x + g x)%R = (rsum l f + rsum l g)%R.
Proof. induction l; simpl; [ring|]. rewrite IHl. ring. Qed.
Lemma rsum_minus {A} (l : list A) f g : rsum l (fun x => f x - g x)%R = (rsum l f - rsum l g)%R.
Proof. induction l; simpl; [ring|]. rewrite IHl. ring. Qed.

Lemma ac_current_sums J idc ikk vph alpha b vb :
  ac_current J idc ikk vph alpha b vb =
  (rsum (sym b) (fun n => besselZ J n alpha * (besselZ J (n - 1) alpha + besselZ J (n + 1) alpha) * idc (vb + IZR n * vph)),
   rsum (sym b) (fun n => besselZ J n alpha * (besselZ J (n - 1) alpha - besselZ J (n + 1) alpha) * ikk (vb + IZR n * vph)))%R.
Proof.
  unfold ac_current. change (zrange (- Z.of_nat b) (Z.of_nat b + 1)) with (sym b).
  set (T1 := fun n => (besselZ J n alpha * (besselZ J (n - 1) alpha + besselZ J (n + 1) alpha) * idc (vb + IZR n * vph))%R).
  set (T2 := fun n => (besselZ J n alpha * (besselZ J (n - 1) alpha - besselZ J (n + 1) alpha))%R).
  set (T3 := fun n => ikk (vb + IZR n * vph)%R).
  assert (G : forall l acc, fold_left (fun ac n =>
      Cplus (Cplus ac (RtoC (T1 n))) (Cmult (Cmult Ci (RtoC (T2 n))) (RtoC (T3 n)))) l acc =
      Cplus acc (rsum l T1, rsum l (fun n => T2 n * T3 n)%R)).
  { induction l as [|n l IH]; intros acc; cbn [fold_left rsum].
    - destruct acc. unfold Cplus; simpl. f_equal; ring.
    - rewrite IH. destruct acc. unfold Cplus, Cmult, Ci, RtoC; simpl. f_equal; ring. }
  cbv zeta. unfold T1, T2, T3 in G. rewrite G. fold T1. unfold Cplus, RtoC; simpl. f_equal; ring.
Qed.

(** The terms of the large-signal formula at the truncation edge. *)
Definition edge (J : nat -> R -> R) (resp : R -> C) (vph alpha : R) (num_b : nat) (vb : R) : C :=
  let b := Z.of_nat num_b in
  let up := (besselZ J b alpha * besselZ J (b + 1) alpha)%R in
  let dn := (besselZ J (- b) alpha * besselZ J (- b - 1) alpha)%R in
  ((up * Im (resp (vb + IZR b * vph)) + dn * Im (resp (vb - IZR b * vph)))%R,
   (dn * Re (resp (vb - IZR b * vph)) - up * Re (resp (vb + IZR b * vph)))%R).

Lemma ac_one_tone_1 b (g : Z -> R) f vb resp w : (/ 10000 < f)%R -> round4 w = round4 f ->
  current 1 [Tone b (fun k => RtoC (g k))] [f] vb resp w =
  coeff [Tone b (fun k => RtoC (g k))] [1%Z] (fun ks => resp (vb + dot ks [f])%R).
Proof.
  intros Hf Hw. unfold current. cbn [length]. rewrite csum_index_S. rewrite (csum_single (sym 1) 1%Z).
  - rewrite csum_index_0. cbn [dot]. replace (1 * f + 0)%R with f by ring. unfold same_freq. rewrite Hw.
    destruct (Req_EM_T _ _) as [_|N]; [reflexivity|now contradiction N].
  - apply sym_NoDup.
  - apply in_sym. simpl. lia.
  - intros a _ Ha. rewrite csum_index_0. cbn [dot]. unfold same_freq. destruct (Req_EM_T _ _) as [E|]; [|reflexivity].
    exfalso. apply Ha. apply (multiples_distinct f); [assumption|]. rewrite Rmult_1_l, <- Hw.
    rewrite Rplus_0_r in E. exact E.
Qed.

Lemma coeff_one_real b (g : Z -> R) rk :
  coeff [Tone b (fun k => RtoC (g k))] [1%Z] rk =
  (rsum (sym b) (fun k => g k * (if within b (k + 1) then g (k + 1)%Z else 0) * Im (rk [k])) +
   rsum (sym b) (fun k => g k * (if within b (k - 1) then g (k - 1)%Z else 0) * Im (rk [k])),
   - (rsum (sym b) (fun k => g k * (if within b (k + 1) then g (k + 1)%Z else 0) * Re (rk [k])) -
      rsum (sym b) (fun k => g k * (if within b (k - 1) then g (k - 1)%Z else 0) * Re (rk [k]))))%R.
Proof.
  unfold coeff. cbn [map forallb Z.eqb andb rs_sum t_b t_C Z.opp]. rewrite !Im_rsum, !Re_rsum.
  assert (E : forall d k, Im (RtoC (g k) * Cconj (cut b (fun k => RtoC (g k)) (k + d)%Z) * rk [k]) =
      (g k * (if within b (k + d) then g (k + d)%Z else 0) * Im (rk [k]))%R /\
     Re (RtoC (g k) * Cconj (cut b (fun k => RtoC (g k)) (k + d)%Z) * rk [k]) =
      (g k * (if within b (k + d) then g (k + d)%Z else 0) * Re (rk [k]))%R).
  { intros d k. rewrite cut_real, Cconj_R. destruct (rk [k]) as [u v]. unfold Cmult, RtoC, Im, Re; simpl. split; ring. }
  f_equal; [f_equal|f_equal; f_equal]; apply rsum_ext; intros k _; apply E.
Qed.

Lemma tucker_ac vj cct resp num_b alpha row : args_ok cct (NbInt num_b) -> q_num_f cct = 1%nat -> q_num_p cct = 1%nat ->
  (/ 10000 < q_freq cct 1)%R ->
  (forall i, (i < q_npts cct)%nat -> vj 1%nat 1%nat i = RtoC (alpha * q_freq cct 1)) ->
  qtcurrent besselJ vj cct resp (FList [q_freq cct 1]) (NbInt num_b) None = Ok (QRows [row]) ->
  row = map2 Cminus
    (find_ac_current besselJ (fun v => Im (resp v)) (fun v => Re (resp v)) (tab (q_npts cct) (q_vb cct)) (q_freq cct 1) alpha num_b)
    (map (edge besselJ resp (q_freq cct 1) alpha num_b) (tab (q_npts cct) (q_vb cct))).
Proof.
  intros Ha HF HP Hf Hv. rewrite qt_list by assumption. cbn [map]. intros E. inversion E; subst row. clear E.
  unfold find_ac_current. rewrite map2_map. rewrite tab_map. unfold spec_row. apply tab_ext. intros i Hi.
  rewrite (current_ext _ _ _ _ _ _ resp _ (real_tone vj cct num_b alpha i HF HP ltac:(lra) (Hv i Hi)) (fun _ => eq_refl)).
  unfold freqs. rewrite HF, HP. cbn [seq map]. rewrite ac_current_sums.
  set (g := fun k => besselZ besselJ k alpha).
  change (fun k : Z => RtoC (besselZ besselJ k alpha)) with (fun k : Z => RtoC (g k)).
  rewrite (ac_one_tone_1 num_b g) by auto. rewrite (coeff_one_real num_b g).
  set (f := q_freq cct 1) in *. set (vb := q_vb cct i).
  set (B := Z.of_nat num_b). cbn [dot].
  assert (Up : forall h : Z -> R, rsum (sym num_b) (fun k => g k * (if within num_b (k + 1) then g (k + 1)%Z else 0) * h k)%R =
     (rsum (sym num_b) (fun k => g k * g (k + 1)%Z * h k) - g B * g (B + 1)%Z * h B)%R).
  { intros h. rewrite (rsum_sub_single num_b _ (fun k => (g k * g (k + 1)%Z * h k)%R) B).
    - destruct (within num_b (B + 1)) eqn:W; [apply within_spec in W; lia|]. ring.
    - apply in_sym. lia.
    - intros k Hk Nk. apply in_sym in Hk. assert (W : within num_b (k + 1) = true) by (apply within_spec; lia). now rewrite W. }
  assert (Dn : forall h : Z -> R, rsum (sym num_b) (fun k => g k * (if within num_b (k - 1) then g (k - 1)%Z else 0) * h k)%R =
     (rsum (sym num_b) (fun k => g k * g (k - 1)%Z * h k) - g (- B)%Z * g (- B - 1)%Z * h (- B)%Z)%R).
  { intros h. rewrite (rsum_sub_single num_b _ (fun k => (g k * g (k - 1)%Z * h k)%R) (- B)%Z).
    - destruct (within num_b (- B - 1)) eqn:W; [apply within_spec in W; lia|]. ring.
    - apply in_sym. lia.
    - intros k Hk Nk. apply in_sym in Hk. assert (W : within num_b (k - 1) = true) by (apply within_spec; lia). now rewrite W. }
  rewrite (Up (fun k => Im (resp (vb + (IZR k * f + 0))%R))), (Dn (fun k => Im (resp (vb + (IZR k * f + 0))%R))).
  rewrite (Up (fun k => Re (resp (vb + (IZR k * f + 0))%R))), (Dn (fun k => Re (resp (vb + (IZR k * f + 0))%R))).
  unfold edge. fold B. unfold Cminus, Cplus, Copp. cbn [fst snd].
  rewrite !opp_IZR. fold (g B) (g (B + 1)%Z) (g (- B)%Z) (g (- B - 1)%Z).
  rewrite <- !Ropp_mult_distr_l, !Rplus_0_r. fold (Rminus vb (IZR B * f)).
  assert (E1 : forall h : Z -> R, (rsum (sym num_b) (fun k => g k * g (k + 1)%Z * h k) + rsum (sym num_b) (fun k => g k * g (k - 1)%Z * h k)
      = rsum (sym num_b) (fun n => g n * (g (n - 1)%Z + g (n + 1)%Z) * h n))%R).
  { intros h. rewrite <- rsum_plus. apply rsum_ext. intros; ring. }
  assert (E2 : forall h : Z -> R, (rsum (sym num_b) (fun k => g k * g (k - 1)%Z * h k) - rsum (sym num_b) (fun k => g k * g (k + 1)%Z * h k)
      = rsum (sym num_b) (fun n => g n * (g (n - 1)%Z - g (n + 1)%Z) * h n))%R).
  { intros h. rewrite <- rsum_minus. apply rsum_ext. intros; ring. }
  f_equal.
  - match goal with |- _ = (?x + - _)%R => replace x with
      (rsum (sym num_b) (fun k => g k * g (k + 1)%Z * Im (resp (vb + (IZR k * f + 0))%R)) +
       rsum (sym num_b) (fun k => g k * g (k - 1)%Z * Im (resp (vb + (IZR k * f + 0))%R)))%R end; [ring|].
    rewrite (E1 (fun n => Im (resp (vb + (IZR n * f + 0))%R))). apply rsum_ext. intros. now rewrite Rplus_0_r.
  - match goal with |- _ = (?x + - _)%R => replace x with
      (rsum (sym num_b) (fun k => g k * g (k - 1)%Z * Re (resp (vb + (IZR k * f + 0))%R)) -
       rsum (sym num_b) (fun k => g k * g (k + 1)%Z * Re (resp (vb + (IZR k * f + 0))%R)))%R end; [ring|].
    rewrite (E2 (fun n => Re (resp (vb + (IZR n * f + 0))%R))). apply rsum_ext. intros. now rewrite Rplus_0_r.
Qed.

(** ** Witnesses *)

Lemma Rabs_eq_0 x : Rabs x = 0%R -> x = 0%R.
Proof. intros H. destruct (Req_dec x 0) as [E|E]; [exact E|]. now apply Rabs_no_R0 in E. Qed.

Lemma small_drive : exists a, (0 < a)%R /\ besselJ 0 a <> 0%R /\ besselJ 1 a <> 0%R /\ besselJ 2 a <> 0%R.
Proof.
  destruct (besselJ_neq0_small 0) as [d0 [P0 H0]]. destruct (besselJ_neq0_small 1) as [d1 [P1 H1]].
  destruct (besselJ_neq0_small 2) as [d2 [P2 H2]].
  set (d := Rmin d0 (Rmin d1 d2)). assert (0 < d)%R by (unfold d; repeat apply Rmin_pos; assumption).
  assert (d <= d0)%R by apply Rmin_l. assert (d <= Rmin d1 d2)%R by apply Rmin_r.
  assert (Rmin d1 d2 <= d1)%R by apply Rmin_l. assert (Rmin d1 d2 <= d2)%R by apply Rmin_r.
  exists (d / 2)%R. assert (Rabs (d / 2) = d / 2)%R by (apply Rabs_pos_eq; lra).
  repeat split; try lra; [apply H0|apply H1|apply H2]; lra.
Qed.

(** One tone at frequency 1, [P] harmonics, one bias point at 0. *)
Definition wit_cct (P : nat) : qcct :=
  {| q_num_f := 1; q_num_p := P; q_npts := 1; q_freq := fun _ => 1%R; q_vb := fun _ => 0%R |}.

Lemma wit_args P num_b : (1 <= P)%nat -> match num_b with NbInt _ => True | NbTuple l => (1 <= length l)%nat end ->
  args_ok (wit_cct P) num_b.
Proof. intros HP H. unfold args_ok; simpl. repeat split; try lia; [intros; lra|]. destruct num_b; [exact I|lia]. Qed.

(** Harmonics 2 and 3 driven at level a, nothing at the fundamental. *)
Definition wit_vj (a : R) (f p i : nat) : C :=
  match p with 2%nat => RtoC (a * 2) | 3%nat => RtoC (a * 3) | _ => RtoC 0 end.

(** An I-V curve with one spike, one photon step above the bias. *)
Definition wit_resp (x : R) : C := if Req_EM_T x 1 then Ci else RtoC 0.

Lemma wit_resp_Im k : Im (wit_resp (0 + IZR k * 1)%R) = if (k =? 1)%Z then 1%R else 0%R.
Proof.
  unfold wit_resp. replace (0 + IZR k * 1)%R with (IZR k) by ring. destruct (Req_EM_T (IZR k) 1) as [E|E], (Z.eqb_spec k 1) as [E'|E'].
  - reflexivity.
  - exfalso. apply E'. apply eq_IZR. exact E.
  - subst. now contradiction E.
  - reflexivity.
Qed.

Lemma wit_dc num_b (C1 : C) : 
  (exists l, num_b = NbTuple (1%nat :: l)) ->
  (forall a, phase_factor (list_max (nbtuple num_b 1)) 1 (fun p => JA besselJ (wit_vj a) (q_freq (wit_cct 3)) 1 p 0) 3 1 = C1 ->
    qtcurrent besselJ (wit_vj a) (wit_cct 3) wit_resp (FList [0%R]) num_b None = Ok (QRows [[RtoC (Cmod C1 ^ 2)]])).
Proof.
  intros [l ->] a HC. rewrite qt_list by (apply wit_args; simpl; lia). cbn [map]. do 3 f_equal.
  unfold spec_row, tab. cbn [q_npts wit_cct seq map]. f_equal. unfold tones, freqs.
  cbn [q_num_f wit_cct seq map q_num_p q_freq q_vb Nat.sub]. rewrite tone_of_phase. cbn [nbtuple nth].
  rewrite dc_one_tone; [|lra|apply round4_0]. f_equal.
  change (sym 1) with [(-1)%Z; 0%Z; 1%Z]. cbn [rsum]. rewrite !wit_resp_Im. cbn [Z.eqb Pos.eqb].
  cbn [nbtuple wit_cct q_freq] in HC. rewrite HC. ring.
Qed.

Lemma JA_wit_1 a n : JA besselJ (wit_vj a) (q_freq (wit_cct 3)) 1 1 0 n = delta n.
Proof. apply JA_zero; [apply besselJ_like|reflexivity]. Qed.

Lemma JA_wit p a n : (0 < a)%R -> (p = 2 \/ p = 3)%nat ->
  JA besselJ (wit_vj a) (q_freq (wit_cct 3)) 1 p 0 n = RtoC (besselZ besselJ n a).
Proof.
  intros Ha Hp.
  set (vj' := fun (f q i : nat) => wit_vj a f p i).
  assert (E : JA besselJ (wit_vj a) (q_freq (wit_cct 3)) 1 p 0 n = JA besselJ vj' (fun _ => INR p) 1 1 0 n).
  { unfold JA, vj'. cbn [wit_cct q_freq]. f_equal. simpl (INR 1). f_equal. ring. }
  rewrite E. apply JA_real.
  - apply lt_0_INR. lia.
  - unfold vj', wit_vj. destruct Hp; subst p; simpl INR; f_equal; ring.
Qed.

Definition A_of (a : R) (p : nat) (n : Z) : C :=
  match p with 1%nat => delta n | 2%nat | 3%nat => RtoC (besselZ besselJ n a) | _ => RtoC 0 end.

Lemma wit_pf B a k : (0 < a)%R ->
  phase_factor B 1 (fun p => JA besselJ (wit_vj a) (q_freq (wit_cct 3)) 1 p 0) 3 k = phase_factor B 1 (A_of a) 3 k.
Proof.
  intros Ha. apply phase_factor_ext. intros m n Hm. destruct m as [|[|[|[|m]]]]; try lia; unfold A_of.
  - apply JA_wit_1.
  - apply JA_wit; [assumption|lia].
  - apply JA_wit; [assumption|lia].
Qed.

Lemma pf_2 B a k : (1 <= B)%nat -> phase_factor B 1 (A_of a) 2 k =
   csum (sym 1) (fun l => delta (k - 2 * l) * RtoC (besselZ besselJ l a)).
Proof.
  intros HB. rewrite phase_factor_S by lia. apply csum_ext. intros l _. change (A_of a 2 l) with (RtoC (besselZ besselJ l a)).
  f_equal. rewrite phase_factor_1. unfold cut. change (A_of a 1) with delta. change (Z.of_nat 2) with 2%Z.
  destruct (Z.leb_spec (Z.abs (k - 2 * l)) (Z.of_nat B)), (Z.leb_spec (Z.abs (k - 2 * l)) (Z.of_nat 1)); try reflexivity;
    unfold delta; destruct (Z.eqb_spec (k - 2 * l) 0); try reflexivity; lia.
Qed.

Lemma pf_3_small a : phase_factor 1 1 (A_of a) 3 1 = RtoC 0.
Proof.
  rewrite phase_factor_S by lia. change (sym 1) with [(-1)%Z; 0%Z; 1%Z]. cbn [csum].
  rewrite !(cut_within 1). change (Z.of_nat 3) with 3%Z.
  replace (within 1 (1 - 3 * -1)) with false by reflexivity. replace (within 1 (1 - 3 * 0)) with true by reflexivity.
  replace (within 1 (1 - 3 * 1)) with false by reflexivity. rewrite pf_2 by lia. change (sym 1) with [(-1)%Z; 0%Z; 1%Z].
  cbn [csum]. unfold delta. cbn. ring.
Qed.

Lemma pf_3_large a : phase_factor 3 1 (A_of a) 3 1 = RtoC (besselZ besselJ (-1) a) * RtoC (besselZ besselJ 1 a).
Proof.
  rewrite phase_factor_S by lia. change (sym 1) with [(-1)%Z; 0%Z; 1%Z]. cbn [csum].
  rewrite !(cut_within 3). change (Z.of_nat 3) with 3%Z.
  replace (within 3 (1 - 3 * -1)) with false by reflexivity. replace (within 3 (1 - 3 * 0)) with true by reflexivity.
  replace (within 3 (1 - 3 * 1)) with true by reflexivity. rewrite !pf_2 by lia. change (sym 1) with [(-1)%Z; 0%Z; 1%Z].
  change (A_of a 3 1) with (RtoC (besselZ besselJ 1 a)). change (A_of a 3 0) with (RtoC (besselZ besselJ 0 a)).
  cbn [csum]. unfold delta. simpl Z.eqb. cbv iota. ring.
Qed.

(** Extra entries of num_b change the result from three harmonics on. *)
Lemma extra_entries_matter : exists vj cct resp l extra,
  args_ok cct (NbTuple l) /\ length l = q_num_f cct /\
  qtcurrent besselJ vj cct resp (FList [0%R]) (NbTuple (l ++ extra)) None <>
  qtcurrent besselJ vj cct resp (FList [0%R]) (NbTuple l) None.
Proof.
  destruct small_drive as [a [Ha [_ [H1 _]]]].
  exists (wit_vj a), (wit_cct 3), wit_resp, [1%nat], [3%nat].
  split; [apply wit_args; simpl; lia|]. split; [reflexivity|]. cbn [app].
  rewrite (wit_dc (NbTuple [1%nat; 3%nat]) (RtoC (besselZ besselJ (-1) a) * RtoC (besselZ besselJ 1 a))); [|eauto|].
  - rewrite (wit_dc (NbTuple [1%nat]) (RtoC 0)); [|eauto|].
    + rewrite Cmod_0, Cmod_mult, !Cmod_R. intros E. inversion E as [E1].
      assert (Rabs (besselZ besselJ (-1) a) * Rabs (besselZ besselJ 1 a) = 0)%R by nra.
      apply Rmult_integral in H. unfold besselZ in H. simpl in H.
      change (Pos.to_nat 1) with 1%nat in H. destruct H as [H|H].
      * apply Rabs_eq_0 in H. apply H1. lra.
      * apply Rabs_eq_0 in H. contradiction.
    + change (list_max (nbtuple (NbTuple [1%nat]) 1)) with 1%nat. rewrite wit_pf by assumption. apply pf_3_small.
  - change (list_max (nbtuple (NbTuple [1%nat; 3%nat]) 1)) with 3%nat. rewrite wit_pf by assumption. apply pf_3_large.
Qed.

(** A second tone at the same or another frequency, idle. *)
Definition wit_cct2 (P : nat) (f1 f2 : R) : qcct :=
  {| q_num_f := 2; q_num_p := P; q_npts := 1; q_freq := fun f => if (f =? 1)%nat then f1 else f2; q_vb := fun _ => 0%R |}.
Definition wit_vj2 (a : R) (f p i : nat) : C := if (f =? 1)%nat then wit_vj a f p i else RtoC 0.

Lemma idle_tone_matters : exists vj vj' cct cct' resp l b,
  args_ok cct (NbTuple l) /\ args_ok cct' (NbTuple (l ++ [b])) /\ length l = q_num_f cct /\
  q_num_f cct' = S (q_num_f cct) /\ q_num_p cct' = q_num_p cct /\ q_npts cct' = q_npts cct /\ q_vb cct' = q_vb cct /\
  (forall f, (1 <= f <= q_num_f cct)%nat -> q_freq cct' f = q_freq cct f) /\
  (forall f p i, (1 <= f <= q_num_f cct)%nat -> vj' f p i = vj f p i) /\
  (forall p i, vj' (S (q_num_f cct)) p i = RtoC 0) /\
  qtcurrent besselJ vj' cct' resp (FList [0%R]) (NbTuple (l ++ [b])) None <>
  qtcurrent besselJ vj cct resp (FList [0%R]) (NbTuple l) None.
Proof.
  destruct small_drive as [a [Ha [_ [H1 _]]]].
  exists (wit_vj a), (wit_vj2 a), (wit_cct 3), (wit_cct2 3 1 1), wit_resp, [1%nat], 3%nat.
  split; [apply wit_args; simpl; lia|]. split.
  { unfold args_ok; simpl. repeat split; try lia. intros f Hf. destruct (f =? 1)%nat; lra. }
  split; [reflexivity|]. split; [reflexivity|]. split; [reflexivity|]. split; [reflexivity|]. split; [reflexivity|].
  split; [intros f Hf; simpl in Hf; assert (f = 1)%nat by lia; now subst|].
  split; [intros f p i Hf; simpl in Hf; assert (f = 1)%nat by lia; now subst|].
  split; [reflexivity|].
  rewrite (wit_dc (NbTuple [1%nat]) (RtoC 0)); [|eauto|].
  2:{ change (list_max (nbtuple (NbTuple [1%nat]) 1)) with 1%nat. rewrite wit_pf by assumption. apply pf_3_small. }
  (* the idle tone drops out of the formula, but not out of max(num_b) *)
  set (T := Tone 1 (phase_factor 3 1 (fun p => JA besselJ (wit_vj2 a) (fun f => if (f =? 1)%nat then 1%R else 1%R) 1 p 0) 3)).
  assert (E : qtcurrent besselJ (wit_vj2 a) (wit_cct2 3 1 1) wit_resp (FList [0%R]) (NbTuple ([1%nat] ++ [3%nat])) None =
     Ok (QRows [[current 3 [T] [1%R] 0 wit_resp 0]])).
  { rewrite qt_list.
    2:{ unfold args_ok; simpl. repeat split; try lia. intros f Hf. destruct (f =? 1)%nat; lra. }
    cbn [map]. do 3 f_equal. unfold spec_row, tab. cbn [q_npts wit_cct2 seq map]. f_equal. unfold tones, freqs.
    cbn [q_num_f wit_cct2 seq map q_num_p q_freq q_vb Nat.sub nbtuple app nth Nat.eqb]. rewrite !tone_of_phase.
    change (list_max [1%nat; 3%nat]) with 3%nat.
    set (T2 := Tone 3 _).
    transitivity (current 3 [T2; T] [1%R; 1%R] 0 wit_resp 0); [|apply current_idle_hd].
    - apply current_perm; try reflexivity. cbn [zip2]. apply perm_swap.
    - intros k Hk. unfold T2 in *. cbn [t_b t_C] in *. apply phase_factor_delta; [lia|lia| |lia].
      intros m n Hm. apply JA_zero; [apply besselJ_like|reflexivity]. }
  rewrite E. clear E. unfold T. rewrite dc_one_tone; [|lra|apply round4_0].
  change (sym 1) with [(-1)%Z; 0%Z; 1%Z]. cbn [rsum]. rewrite !wit_resp_Im. cbn [Z.eqb Pos.eqb].
  assert (EP : forall k, phase_factor 3 1 (fun p => JA besselJ (wit_vj2 a) (fun f => if (f =? 1)%nat then 1%R else 1%R) 1 p 0) 3 k
              = phase_factor 3 1 (A_of a) 3 k).
  { intros k. rewrite <- wit_pf by assumption. apply phase_factor_ext. intros. reflexivity. }
  rewrite !EP, pf_3_large. rewrite Cmod_0, Cmod_mult, !Cmod_R. intros E. inversion E as [E1].
  assert (Rabs (besselZ besselJ (-1) a) * Rabs (besselZ besselJ 1 a) = 0)%R by nra.
  apply Rmult_integral in H. unfold besselZ in H. simpl in H.
  change (Pos.to_nat 1) with 1%nat in H. destruct H as [H|H].
  - apply Rabs_eq_0 in H. apply H1. lra.
  - apply Rabs_eq_0 in H. contradiction.
Qed.

(** Two tones closer than the resolution: the driven one is reported at the idle
    one's frequency. *)
Lemma round4_near n x : (Rabs (IZR n - x * 10000) < / 2)%R -> round4 x = (IZR n / 10000)%R.
Proof.
  intros H. unfold round4, round_dec. replace (10 ^ 4)%R with 10000%R by ring. now rewrite (rint_unique_strict _ n).
Qed.

Lemma tones_merge : exists vj cct resp num_b row,
  args_ok cct num_b /\ q_num_f cct = 2%nat /\ q_num_p cct = 1%nat /\ q_npts cct = 1%nat /\
  q_freq cct 1%nat <> q_freq cct 2%nat /\
  (forall i, vj 1%nat 1%nat i = RtoC 0) /\
  (* no product of the driven tone has the frequency of the idle one *)
  (forall a2, (-1 <= a2 <= 1)%Z -> (IZR a2 * q_freq cct 2)%R <> q_freq cct 1%nat) /\
  qtcurrent besselJ vj cct resp (FList [q_freq cct 1%nat]) num_b None = Ok (QRows [[row]]) /\ row <> RtoC 0.
Proof.
  destruct small_drive as [a [Ha [H0 [H1 _]]]].
  set (f2 := (1 + / 100000)%R).
  set (vj := fun f (p i : nat) => if (f =? 1)%nat then RtoC 0 else RtoC (a * f2)).
  set (cct := wit_cct2 1 1 f2). set (resp := fun x : R => (0, x)%R : C).
  set (T := Tone 1 (fun k => RtoC (besselZ besselJ k a))).
  exists vj, cct, resp, (NbInt 1), (current 1 [T] [f2] 0 resp 1).
  assert (F2 : (1 < f2)%R) by (unfold f2; lra).
  assert (Ha0 : args_ok cct (NbInt 1)).
  { unfold args_ok; simpl. repeat split; try lia. intros f Hf. destruct (f =? 1)%nat; lra. }
  split; [assumption|]. split; [reflexivity|]. split; [reflexivity|]. split; [reflexivity|].
  split; [simpl; lra|]. split; [reflexivity|].
  split. { intros a2 Ha2. simpl. assert (a2 = -1 \/ a2 = 0 \/ a2 = 1)%Z by lia. destruct H as [->|[->| ->]]; lra. }
  split.
  - rewrite qt_list by assumption. cbn [map]. do 3 f_equal. unfold spec_row, tab. cbn [q_npts cct wit_cct2 seq map]. f_equal.
    unfold tones, freqs. cbn [q_num_f cct wit_cct2 seq map q_num_p q_freq q_vb Nat.sub nbtuple repeat nth Nat.eqb].
    rewrite !tone_of_phase. change (list_max [1%nat; 1%nat]) with 1%nat.
    set (T1 := Tone 1 _). set (T2 := Tone 1 _). transitivity (current 1 [T2] [f2] 0 resp 1).
    + apply current_idle_hd. intros k Hk. unfold T1 in *. cbn [t_b t_C] in *. apply phase_factor_delta; [lia|lia| |lia].
      intros m n Hm. apply JA_zero; [apply besselJ_like|reflexivity].
    + apply current_ext; [|reflexivity]. constructor; [|constructor]. split; [reflexivity|]. intros k Hk. unfold T, T2. cbn [t_b t_C] in *.
      rewrite phase_factor_1, cut_in by assumption. apply JA_real; [simpl; lra|reflexivity].
  - unfold T. rewrite (ac_one_tone_1 1 (fun k => besselZ besselJ k a)).
    + rewrite (coeff_one_real 1 (fun k => besselZ besselJ k a)). change (sym 1) with [(-1)%Z; 0%Z; 1%Z]. cbn [rsum]. 
      change (within 1 (-1 + 1)) with true. change (within 1 (0 + 1)) with true. change (within 1 (1 + 1)) with false.
      change (within 1 (-1 - 1)) with false. change (within 1 (0 - 1)) with true. change (within 1 (1 - 1)) with true.
      cbv iota. unfold resp. cbn [dot]. unfold Im. cbn [snd].
      change (-1 + 1)%Z with 0%Z. change (0 + 1)%Z with 1%Z. change (0 - 1)%Z with (-1)%Z. change (1 - 1)%Z with 0%Z.
      assert (B1 : besselZ besselJ (-1) a = (- besselJ 1 a)%R).
      { unfold besselZ. simpl. change (Pos.to_nat 1) with 1%nat. ring. }
      assert (B2 : besselZ besselJ 1 a = besselJ 1 a) by reflexivity. assert (B3 : besselZ besselJ 0 a = besselJ 0 a) by reflexivity.
      rewrite B1, B2, B3. intros E. apply (f_equal fst) in E. cbn [fst RtoC] in E.
      assert (Z : (2 * (besselJ 0 a * besselJ 1 a * f2) = 0)%R) by (rewrite <- E; simpl IZR; ring).
      assert (Z' : (besselJ 0 a * besselJ 1 a * f2 = 0)%R) by lra.
      apply Rmult_integral in Z'. destruct Z' as [Z'|Z']; [|lra]. apply Rmult_integral in Z'. tauto.
    + unfold f2. lra.
    + rewrite (round4_near 10000 1), (round4_near 10000 f2); [reflexivity| |].
      * unfold f2. replace (IZR 10000 - (1 + / 100000) * 10000)%R with (- / 10)%R by field. rewrite Rabs_Ropp, Rabs_pos_eq; lra.
      * replace (IZR 10000 - 1 * 10000)%R with 0%R by ring. rewrite Rabs_R0. lra.
Qed.

(** A matrix made for num_b = 1 used with num_b = 2: accepted, but the photon
    steps +2 and -2 are read from the cells of -1 and +1. *)
Lemma small_matrix_wrong : exists vj cct resp rm r1 r2,
  args_ok cct (NbInt 2) /\ interpolate_respfn cct resp (NbInt 1) = Ok rm /\
  qtcurrent besselJ vj cct resp (FList [0%R]) (NbInt 2) (Some rm) = Ok (QRows [[r1]]) /\
  qtcurrent besselJ vj cct resp (FList [0%R]) (NbInt 2) None = Ok (QRows [[r2]]) /\ r1 <> r2.
Proof.
  destruct small_drive as [a [Ha [_ [_ H2]]]].
  set (resp := fun x : R => if Req_EM_T x 2 then Ci else RtoC 0).
  set (vj := fun (f p i : nat) => RtoC (a * 1)).
  set (resp' := fun x : R => if Req_EM_T x (-2) then resp 1%R else if Req_EM_T x 2 then resp (-1)%R else resp x).
  exists vj, (wit_cct 1), resp, (interpolate_respfn_1_tone resp 1 (fun _ => 0%R) (fun _ => 1%R) 1).
  assert (Ha0 : args_ok (wit_cct 1) (NbInt 2)) by (apply wit_args; simpl; auto).
  set (T := Tone 2 (fun k => RtoC (besselZ besselJ k a))).
  assert (Row : forall r, spec_row besselJ vj (wit_cct 1) r (NbInt 2) 0 = [current 1 [T] [1%R] 0 r 0]).
  { intros r. unfold spec_row, tab. cbn [q_npts wit_cct seq map]. f_equal. cbn [q_num_p q_vb freqs wit_cct q_num_f seq map q_freq].
    apply current_ext; [|reflexivity].
    apply (real_tone vj (wit_cct 1) 2 a 0); try reflexivity. simpl. lra. }
  exists (current 1 [T] [1%R] 0 resp' 0), (current 1 [T] [1%R] 0 resp 0).
  split; [assumption|]. split; [reflexivity|]. split.
  { transitivity (qtcurrent besselJ vj (wit_cct 1) resp' (FList [0%R]) (NbInt 2) (Some (interpolate_respfn_1_tone resp 1 (fun _ => 0%R) (fun _ => 1%R) 1)));
      [reflexivity|].
    rewrite (qtcurrent_spec besselJ vj (wit_cct 1) resp' (FList [0%R]) (NbInt 2)); [cbn [map]; now rewrite Row|assumption|].
    cbn [q_num_f wit_cct nbtuple repeat firstn]. split; [reflexivity|]. split; [reflexivity|].
    intros ks Hks. inversion Hks as [|? k ? ? Hk H]; subst. inversion H; subst. simpl in Hk.
    eexists. split.
    - unfold rm_get. cbn [rm_shape interpolate_respfn_1_tone nbidxs]. unfold nbidx.
      assert (D : (k = -2 \/ k = -1 \/ k = 0 \/ k = 1 \/ k = 2)%Z) by lia.
      instantiate (1 := fun i => resp (0 + IZR (match k with (-2)%Z => 1 | 2 => -1 | _ => k end) * 1)%R).
      destruct D as [->|[->|[->|[->| ->]]]]; reflexivity.
    - intros i. unfold vbdot. cbn [freqs wit_cct q_num_f seq map q_freq q_vb dot].
      assert (D : (k = -2 \/ k = -1 \/ k = 0 \/ k = 1 \/ k = 2)%Z) by lia.
      unfold resp'. destruct D as [->|[->|[->|[->| ->]]]]; cbn [Z.eqb];
      repeat (destruct (Req_EM_T _ _); [exfalso; lra|] || (destruct (Req_EM_T _ _) as [Ex|Ex]; [|exfalso; apply Ex; ring]));
      unfold resp; repeat destruct (Req_EM_T _ _); try reflexivity; exfalso; lra. }
  split. { rewrite qt_list by assumption. cbn [map]. now rewrite Row. }
  unfold T. rewrite !dc_one_tone by (try lra; apply round4_0).
  change (sym 2) with [(-2)%Z; (-1)%Z; 0%Z; 1%Z; 2%Z]. cbn [rsum]. intros E. apply RtoC_inj in E.
  assert (I0 : forall k, (-2 <= k <= 2)%Z -> Im (resp' (0 + IZR k * 1)%R) = 0%R).
  { intros k Hk. assert (D : (k = -2 \/ k = -1 \/ k = 0 \/ k = 1 \/ k = 2)%Z) by lia.
    unfold resp', resp. destruct D as [->|[->|[->|[->| ->]]]]; repeat (destruct (Req_EM_T _ _)); try reflexivity; exfalso; lra. }
  assert (I1 : forall k, (-2 <= k <= 1)%Z -> Im (resp (0 + IZR k * 1)%R) = 0%R).
  { intros k Hk. assert (D : (k = -2 \/ k = -1 \/ k = 0 \/ k = 1)%Z) by lia.
    unfold resp. destruct D as [->|[->|[->| ->]]]; repeat (destruct (Req_EM_T _ _)); try reflexivity; exfalso; lra. }
  assert (I2 : Im (resp (0 + IZR 2 * 1)%R) = 1%R).
  { unfold resp. destruct (Req_EM_T _ _) as [_|N]; [reflexivity|exfalso; apply N; ring]. }
  rewrite !I0, !I1, I2 in E by lia. rewrite !Rmult_0_r, !Rplus_0_l, Rmult_1_r, Rplus_0_r in E.
  rewrite Cmod_R in E. symmetry in E. change (besselZ besselJ 2 a) with (besselJ 2 a) in E.
  apply H2. apply Rabs_eq_0. nra.
Qed.
