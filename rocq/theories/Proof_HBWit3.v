(** A run that applies one correction more than allowed, and whose mask is out of date. *)
From Coq Require Import List ZArith Lia Bool Arith Reals Lra String Permutation.
From Coquelicot Require Import Complex.
From Verif Require Import Base Sums Round Bessel Model_QtCurrent Spec_QtCurrent Spec_QtApi Proof_QtCurrent Proof_QtCurrent2 Proof_QtSym
  Proof_QtApi Proof_QtApi2 Proof_QtWit Model_Circuit Proof_Circuit Model_HB Spec_HB Proof_HB Proof_HB2 Proof_HB3 Proof_HB4 Proof_HBWit Proof_HBWit2.
Import ListNotations.
Open Scope C_scope.

Lemma q2_first_swap a F v : (1 < F)%R -> v 2%nat 1%nat 0%nat = RtoC 0 -> v 1%nat 1%nat 0%nat = RtoC (a * F) ->
  current_at besselJ (q2 F) (resp2 F) (NbInt 1) v 2 1 0 = RtoC (2 * besselJ 0 a * besselJ 1 a * F).
Proof.
  intros HF V2 V1. set (v' := fun f p i => if (f =? 1)%nat then v 2%nat p i else v 1%nat p i).
  rewrite <- (q2_first a F v' HF V2 V1). unfold current_at, tones, freqs.
  cbn [q_num_f q2 seq map q_num_p q_freq q_vb Nat.sub nbtuple repeat nth Nat.eqb].
  apply current_perm; try reflexivity. cbn [zip2]. apply perm_swap.
Qed.

Lemma current_at_ext2 J q resp num_b v v' f p i : (forall g m, signal q g m -> v g m i = v' g m i) ->
  current_at J q resp num_b v f p i = current_at J q resp num_b v' f p i.
Proof.
  intros H. unfold current_at. apply current_ext; [|reflexivity]. unfold tones. apply Forall2_map_seq. intros g Hg.
  split; [reflexivity|]. intros k _. unfold tone_of. cbn [t_C]. apply phase_factor_ext. intros m n Hm.
  rewrite (H g m); [reflexivity|]. split; lia.
Qed.

Lemma three_points (b c : R) : exists k, (k = 1 \/ k = 2 \/ k = 3)%R /\ (1 + b * k + c * (k * k) <> 0)%R.
Proof.
  destruct (Req_dec (1 + b * 1 + c * (1 * 1)) 0) as [E1|]; [|eauto]. destruct (Req_dec (1 + b * 2 + c * (2 * 2)) 0) as [E2|]; [|eauto].
  destruct (Req_dec (1 + b * 3 + c * (3 * 3)) 0) as [E3|]; [|eauto]. lra.
Qed.

Lemma extra_correction inv : inverts inv -> exists a F t rm v o, let c := c2 F (a * F) 0 (t * (2 * besselJ 0 a * besselJ 1 a * F)) t in
  let g := (fun f p i => if (f =? 1)%nat then (if (i =? 0)%nat then RtoC (a * F) else RtoC (a * F * (1 + / 2000)))
              else (if (i =? 0)%nat then RtoC 0 else RtoC (t * (2 * besselJ 0 a * besselJ 1 a * F)))) : arr3 in
  (1 < F)%R /\ (1 <= a * F)%R /\ simulates c (NbInt 1) /\ interpolate_respfn (h_q c) (resp2 F) (NbInt 1) = Ok rm /\
  hb_loop besselJ inv c (resp2 F) (NbInt 1) rm 0 (/ 10 ^ 3) 10 g = (v, Ok o) /\ l_iter o = 0%Z /\
  (exists mask, l_mask o = Some mask /\ mask 1%nat = true) /\
  RtoC (a * F) - v 0%nat 1%nat = RtoC (1 - 10) * (RtoC (a * F) - RtoC (a * F * (1 + / 2000))).
Proof.
  intros Hinv.
  destruct small_drive as [a [Ha [J0 [J1 _]]]]. set (F := (1 + / a)%R). assert (Hi : (0 < / a)%R) by now apply Rinv_0_lt_compat. assert (HF : (1 < F)%R) by (unfold F; lra).
  set (I0 := (2 * besselJ 0 a * besselJ 1 a * F)%R).
  assert (HI : I0 <> 0%R). { unfold I0. intros E. repeat (apply Rmult_integral in E; destruct E as [E|E]; [|try contradiction; lra]). lra. }
  assert (HaF : (1 <= a * F)%R). { unfold F. replace (a * (1 + / a))%R with (a + 1)%R by (field; lra). lra. }
  (* the difference quotients at the first point do not depend on t *)
  set (V0 := fun u : C => (fun f p i => if (f =? 1)%nat then RtoC (a * F) else u) : arr3).
  set (d := fun u : C => (current_at besselJ (q2 F) (resp2 F) (NbInt 1) (V0 (u * RtoC DV)) 2 1 0 - RtoC I0) / RtoC DV).
  destruct (three_points (Re (d (RtoC 1)) / I0 + Im (d Ci) / I0) ((Re (d (RtoC 1)) * Im (d Ci) - Re (d Ci) * Im (d (RtoC 1))) / (I0 * I0))) as [k [Hk Hdet]].
  set (t := (k / I0)%R). exists a, F, t. fold I0.
  assert (Ht : (t * I0 = k)%R) by (unfold t; field; assumption). assert (Hk1 : (1 <= k)%R) by (destruct Hk as [-> |[-> | ->]]; lra).
  set (c := c2 F (a * F) 0 (t * I0) t).
  set (g := (fun f p i => if (f =? 1)%nat then (if (i =? 0)%nat then RtoC (a * F) else RtoC (a * F * (1 + / 2000)))
              else (if (i =? 0)%nat then RtoC 0 else RtoC (t * I0))) : arr3).
  assert (Args : args_ok (h_q c) (NbInt 1)) by (apply q2_args; lra).
  assert (Hz : some_impedance c). { exists 2%nat, 1%nat. cbn. split; [lia|]. split; [lia|]. intros E. apply (f_equal fst) in E. simpl in E. rewrite E in Ht. lra. }
  assert (Hs : simulates c (NbInt 1)). { split; [assumption|]. split; [cbn; lia|]. split; [reflexivity|exact Hz]. }
  destruct (matrix_built (h_q c) (resp2 F) (NbInt 1) Args) as [rm ER]. exists rm.
  set (qt := qt_current_for_hb besselJ (h_q c) (resp2 F) (NbInt 1) (Some rm)).
  set (cur := fun w => match qt w with Ok x => x | Err _ => fun _ _ => RtoC 0 end).
  assert (Hcur : forall w, qt w = Ok (cur w)).
  { intros w. unfold cur. destruct (qt_for_hb besselJ (h_q c) (resp2 F) (NbInt 1) rm w Args ER) as [ij [E _]]. fold qt in E. now rewrite E. }
  assert (Hat : forall w k i, (k < 2)%nat -> (i < 2)%nat -> cur w k i = current_at besselJ (q2 F) (resp2 F) (NbInt 1) (unflat 1 w) (S k) 1 i).
  { intros w k' i Hk' Hi'. unfold cur. destruct (qt_for_hb besselJ (h_q c) (resp2 F) (NbInt 1) rm w Args ER) as [ij [E H]]. fold qt in E. rewrite E.
    rewrite H by (cbn; lia). cbn [q_num_p h_q c c2 q2]. unfold sig_f, sig_p. rewrite Nat.div_1_r, Nat.mod_1_r. f_equal; lia. }
  set (vt := flat2 1 (clamp_vt (h_vt c))). set (zt := flat2 1 (h_zt c)). set (w := flat3 1 g).
  assert (Vt : forall q, (q < 2)%nat -> vt q = h_vt c (S q) 1%nat).
  { intros q Hq. unfold vt, flat2. assert (Hq' : (q = 0 \/ q = 1)%nat) by lia. assert (M : (/ 10 ^ 10 <= 1)%R) by lra.
    destruct Hq' as [-> | ->]; [change (sig_f 1 0) with 1%nat; change (sig_p 1 0) with 1%nat|change (sig_f 1 1) with 2%nat; change (sig_p 1 1) with 1%nat];
    rewrite clamp_source by lia; apply source_big; cbn [h_vt c c2 Nat.eqb]; rewrite Cmod_R, Rabs_pos_eq; lra. }
  assert (C1 : forall w' q, (q < 2)%nat -> cur w' q 1%nat = RtoC 0). { intros w' q Hq. rewrite Hat by lia. apply q2_second. lra. }
  assert (C00 : cur w 1%nat 0%nat = RtoC I0). { rewrite Hat by lia. apply (q2_first_swap a F); [assumption|reflexivity|reflexivity]. }
  set (err := residual vt zt (cur w) w).
  assert (E10 : err 1%nat 0%nat = RtoC 0).
  { unfold err, residual. rewrite C00, Vt by lia. change (zt 1%nat) with (RtoC t). change (w 1%nat 0%nat) with (RtoC 0). change (h_vt c 2 1) with (RtoC (t * I0)). rewrite <- RtoC_mult. ring. }
  assert (E01 : err 0%nat 1%nat = RtoC (a * F) - RtoC (a * F * (1 + / 2000))).
  { unfold err, residual. rewrite C1, Vt by lia. change (w 0%nat 1%nat) with (RtoC (a * F * (1 + / 2000))). change (h_vt c 1 1) with (RtoC (a * F)). ring. }
  assert (E11 : err 1%nat 1%nat = RtoC 0).
  { unfold err, residual. rewrite C1, Vt by lia. change (w 1%nat 1%nat) with (RtoC (t * I0)). change (h_vt c 2 1) with (RtoC (t * I0)). ring. }
  destruct (inv_jac_exists 2 2 qt inv vt zt cur w Hinv Hcur) as [js Ejs].
  { intros jac i E Hi'. destruct (jac_exists 2 qt vt zt cur w Hcur) as [jac' [E' HM]]. rewrite E in E'. injection E' as <-.
    assert (HM' : forall p q r s, (p < 2)%nat -> (q < 2)%nat -> (r < 2)%nat -> (s < 2)%nat -> forall x y, x = (2 * p + r)%nat -> y = (2 * q + s)%nat ->
       jac i x y = part r (- zt p * ((cur (bump (unit_of s) q w) p i - cur w p i) / RtoC DV) - (if (p =? q)%nat then unit_of s else RtoC 0))).
    { intros p q r s Hp Hq Hr Hs' x y -> ->. now apply HM. }
    assert (Diag : forall p q r s, (r < 2)%nat -> (s < 2)%nat -> part r (RtoC 0 - (if (p =? q)%nat then unit_of s else RtoC 0)) = if (2 * p + r =? 2 * q + s)%nat then (-1)%R else 0%R).
    { intros p q r s Hr Hs'. assert (Hr' : (r = 0 \/ r = 1)%nat) by lia. assert (Hs2 : (s = 0 \/ s = 1)%nat) by lia.
      destruct (Nat.eqb_spec p q) as [->|N].
      - destruct Hr' as [-> | ->], Hs2 as [-> | ->]; [replace (2 * q + 0 =? 2 * q + 0)%nat with true by (symmetry; now apply Nat.eqb_eq)
          |replace (2 * q + 0 =? 2 * q + 1)%nat with false by (symmetry; apply Nat.eqb_neq; lia)
          |replace (2 * q + 1 =? 2 * q + 0)%nat with false by (symmetry; apply Nat.eqb_neq; lia)
          |replace (2 * q + 1 =? 2 * q + 1)%nat with true by (symmetry; now apply Nat.eqb_eq)]; cbn; ring.
      - replace (2 * p + r =? 2 * q + s)%nat with false by (symmetry; apply Nat.eqb_neq; lia). destruct Hr' as [-> | ->]; cbn; ring. }
    change (2 * 2)%nat with 4%nat. apply right_inverse_4.
    - intros x y Hx Hy. rewrite (HM' 0 (y / 2) x (y mod 2))%nat.
      + change (zt 0%nat) with (RtoC 0). replace (- RtoC 0 * ((cur (bump (unit_of (y mod 2)) (y / 2)%nat w) 0%nat i - cur w 0%nat i) / RtoC DV)) with (RtoC 0) by ring.
        rewrite Diag; [|assumption|apply Nat.mod_upper_bound; lia]. replace (2 * (y / 2) + y mod 2)%nat with y by (apply Nat.div_mod; lia). reflexivity.
      + lia.
      + apply Nat.div_lt_upper_bound; lia.
      + assumption.
      + apply Nat.mod_upper_bound; lia.
      + lia.
      + apply Nat.div_mod; lia.
    - assert (Hi2 : (i = 0 \/ i = 1)%nat) by lia.
      rewrite (HM' 1 1 0 0 ltac:(lia) ltac:(lia) ltac:(lia) ltac:(lia) 2 2 eq_refl eq_refl)%nat.
      rewrite (HM' 1 1 1 1 ltac:(lia) ltac:(lia) ltac:(lia) ltac:(lia) 3 3 eq_refl eq_refl)%nat.
      rewrite (HM' 1 1 0 1 ltac:(lia) ltac:(lia) ltac:(lia) ltac:(lia) 2 3 eq_refl eq_refl)%nat.
      rewrite (HM' 1 1 1 0 ltac:(lia) ltac:(lia) ltac:(lia) ltac:(lia) 3 2 eq_refl eq_refl)%nat.
      cbn [Nat.eqb]. destruct Hi2 as [-> | ->].
      + assert (D : forall u, (cur (bump u 1%nat w) 1%nat 0%nat - cur w 1%nat 0%nat) / RtoC DV = d u).
        { intros u. rewrite C00, Hat by lia. unfold d.
          apply (f_equal (fun x => (x - RtoC I0) / RtoC DV)). apply current_at_ext2. intros f p Hfp. apply q2_signal in Hfp. destruct Hfp as [[-> | ->] ->]; unfold unflat, bump, V0, w, flat3; cbn; ring. }
        rewrite !D. change (zt 1%nat) with (RtoC t). unfold part, unit_of. cbn [Nat.eqb].
        assert (X : (1 + (Re (d (RtoC 1)) + Im (d Ci)) * t + (Re (d (RtoC 1)) * Im (d Ci) - Re (d Ci) * Im (d (RtoC 1))) * (t * t) <> 0)%R).
        { unfold t. intros X. apply Hdet. rewrite <- X. field. assumption. }
        intros Z. apply X. rewrite <- Z. destruct (d (RtoC 1)), (d Ci). cbn. ring.
      + rewrite !C1 by lia. replace (- zt 1%nat * ((RtoC 0 - RtoC 0) / RtoC DV)) with (RtoC 0) by (unfold Cdiv; ring).
        cbn. lra. }
  fold err in Ejs.
  assert (NanM : rel_max 2 2 vt zt (cur w) w = NaN).
  { unfold rel_max. fold err. apply max_rel_nan; [lia|lia|]. exists 0%nat. split; [lia|]. split; [reflexivity|exact E10]. }
  set (v := update 2 10 js err w).
  set (mask := finished_points 2 (/ 10 ^ 3) err w).
  assert (Run : hb_loop besselJ inv c (resp2 F) (NbInt 1) rm 0 (/ 10 ^ 3) 10 g = (v, Ok {| l_iter := 0; l_mask := Some mask; l_why := RanOut |})).
  { unfold hb_loop. change (q_num_f (h_q c) * q_num_p (h_q c))%nat with 2%nat. change (q_npts (h_q c)) with 2%nat. change (q_num_p (h_q c)) with 1%nat.
    fold qt vt zt w. unfold run_newton. change (zrange 0 (0 + 1)) with [0%Z]. cbn [newton]. rewrite Hcur. fold err.
    unfold rel_max in NanM. fold err in NanM. rewrite NanM. cbn [xle_r xgt_r andb]. rewrite Ejs. reflexivity. }
  exists v. eexists. cbv zeta. split; [assumption|]. split; [assumption|]. split; [assumption|]. split; [exact ER|]. split; [exact Run|]. split; [reflexivity|]. split.
  - exists mask. split; [reflexivity|]. apply finished_spec. intros k' Hk'. assert (Hk2 : (k' = 0 \/ k' = 1)%nat) by lia. destruct Hk2 as [-> | ->].
    + rewrite E01. change (w 0%nat 1%nat) with (RtoC (a * F * (1 + / 2000))). rewrite <- RtoC_minus, !Cmod_R. split.
      * intros Z. apply (f_equal fst) in Z. simpl in Z. lra.
      * rewrite (Rabs_left (a * F - _)) by lra. rewrite (Rabs_pos_eq (a * F * _)) by lra. lra.
    + rewrite E11. change (w 1%nat 1%nat) with (RtoC (t * I0)). rewrite Ht. split; [intros Z; apply (f_equal fst) in Z; simpl in Z; lra|].
      rewrite Cmod_0, Cmod_R, Rabs_pos_eq by lra. lra.
  - pose proof (zero_impedance_step 2 2 qt inv vt zt 10 (proj1 Hinv) w v 0 1) as Z. rewrite Vt in Z by lia.
    change (h_vt c 1 1) with (RtoC (a * F)) in Z. change (w 0%nat 1%nat) with (RtoC (a * F * (1 + / 2000))) in Z. apply Z; try lia; [|reflexivity].
    exists (cur w), js. split; [apply Hcur|]. split; [exact Ejs|reflexivity].
Qed.

Lemma moved a F v : (1 <= a * F)%R -> RtoC (a * F) - v = RtoC (1 - 10) * (RtoC (a * F) - RtoC (a * F * (1 + / 2000))) ->
  v = RtoC (a * F * (1 - 9 / 2000)).
Proof.
  intros HaF E. transitivity (RtoC (a * F) - (RtoC (a * F) - v)); [ring|]. rewrite E. rewrite <- !RtoC_minus, <- RtoC_mult, <- RtoC_minus. f_equal. field.
Qed.

Section Two.
Variable inv : nat -> (nat -> nat -> R) -> option (nat -> nat -> R).
Hypothesis Hinv : inverts inv.

(** The mask marks a point whose returned voltages miss the target. *)
Lemma stale_mask : exists c resp num_b g v mask,
  simulates c num_b /\
  let call := harmonic_balance besselJ inv c resp num_b 0 (/ 10 ^ 3) (Some g) 10 "m" (RtoC 1) in
  r_ret call = Ok (RetM v mask) /\ mask 1%nat = true /\ (1 < q_npts (h_q c))%nat /\ signal (h_q c) 1 1 /\
  ~ (Cmod (residual_at besselJ (r_cct call) resp num_b v 1 1 1) <= / 10 ^ 3 * Cmod (v 1%nat 1%nat 1%nat))%R.
Proof.
  destruct (extra_correction inv Hinv) as [a [F [t [rm [v [o [HF [HaF [Hs [ER [Run [It [[mask [Em Hm]] Hv]]]]]]]]]]]]].
  set (c := c2 _ _ _ _ _) in *. set (g := _ : arr3) in Run. pose proof Hs as [Args [_ [Hw Hz]]].
  destruct (hb_start besselJ inv c (resp2 F) (NbInt 1) 0 (/ 10 ^ 3) g 10 "m" (RtoC 1) rm _ _ Hz Hw ER Run) as [S1 [S2 _]].
  exists c, (resp2 F), (NbInt 1), g. eexists. exists mask. split; [assumption|]. cbv zeta. rewrite S1, S2. unfold ret_of. cbn [String.eqb Ascii.eqb Bool.eqb]. rewrite Em.
  split; [reflexivity|]. split; [assumption|]. split; [cbn; lia|]. split; [split; cbn; lia|].
  apply moved in Hv; [|assumption]. unfold residual_at. change (h_q (clamped c)) with (q2 F). rewrite q2_second by lra.
  change (unflat (q_num_p (h_q c)) v 1%nat 1%nat 1%nat) with (v 0%nat 1%nat). rewrite Hv. rewrite Cmult_0_r.
  cbn [h_vt clamped]. rewrite clamp_source by lia. change (h_vt c 1 1) with (RtoC (a * F)). assert (M : (/ 10 ^ 10 <= 1)%R) by lra.
  rewrite source_big by (rewrite Cmod_R, Rabs_pos_eq; lra).
  replace (RtoC (a * F) - RtoC 0 - RtoC (a * F * (1 - 9 / 2000))) with (RtoC (a * F * (9 / 2000))) by (rewrite <- !RtoC_minus; f_equal; field).
  rewrite !Cmod_R, !Rabs_pos_eq by lra. lra.
Qed.

(** No correction allowed, one applied, none reported. *)
Lemma one_too_many : exists c resp num_b g v,
  simulates c num_b /\
  r_ret (harmonic_balance besselJ inv c resp num_b 0 (/ 10 ^ 3) (Some g) 10 "x" (RtoC 1)) = Ok (RetX v 0 false) /\
  signal (h_q c) 1 1 /\ (1 < q_npts (h_q c))%nat /\ v 1%nat 1%nat 1%nat <> g 1%nat 1%nat 1%nat.
Proof.
  destruct (extra_correction inv Hinv) as [a [F [t [rm [v [o [HF [HaF [Hs [ER [Run [It [_ Hv]]]]]]]]]]]]].
  set (c := c2 _ _ _ _ _) in *. set (g := _ : arr3) in Run. pose proof Hs as [Args [_ [Hw Hz]]].
  destruct (hb_start besselJ inv c (resp2 F) (NbInt 1) 0 (/ 10 ^ 3) g 10 "x" (RtoC 1) rm _ _ Hz Hw ER Run) as [S1 _].
  exists c, (resp2 F), (NbInt 1), g. eexists. split; [assumption|]. rewrite S1. unfold ret_of. cbn [String.eqb Ascii.eqb Bool.eqb]. rewrite It.
  split; [reflexivity|]. split; [split; cbn; lia|]. split; [cbn; lia|].
  change (unflat (q_num_p (h_q c)) v 1%nat 1%nat 1%nat) with (v 0%nat 1%nat). apply moved in Hv; [|assumption]. rewrite Hv.
  change (g 1%nat 1%nat 1%nat) with (RtoC (a * F * (1 + / 2000))). intros E. apply RtoC_inj in E. lra.
Qed.
End Two.
