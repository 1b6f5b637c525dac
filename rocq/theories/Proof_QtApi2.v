(** More properties of qtcurrent, and the witnesses for what does not hold. *)
From Coq Require Import List ZArith Lia Bool Arith Reals Lra Permutation.
From Coquelicot Require Import Complex.
From Verif Require Import Base Sums Round Bessel Model_QtCurrent Spec_QtCurrent Spec_QtApi Proof_QtCurrent
  Proof_QtCurrent2 Proof_QtSym Proof_QtApi Model_Tucker.
Import ListNotations.
Open Scope C_scope.

Lemma tab_map {A B} (g : A -> B) n f : map g (tab n f) = tab n (fun i => g (f i)).
Proof. unfold tab. apply map_map. Qed.

Lemma tab_length {A} n (f : nat -> A) : length (tab n f) = n.
Proof. unfold tab. now rewrite map_length, seq_length. Qed.

Lemma tab_nth {A} n (f : nat -> A) i d : (i < n)%nat -> nth i (tab n f) d = f i.
Proof.
  intros H. unfold tab. rewrite (nth_indep _ d (f 0%nat)) by (rewrite map_length, seq_length; lia).
  rewrite map_nth, seq_nth by lia. reflexivity.
Qed.

Lemma qt_list J vj cct resp l num_b : args_ok cct num_b ->
  qtcurrent J vj cct resp (FList l) num_b None = Ok (QRows (map (spec_row J vj cct resp num_b) l)).
Proof. intros H. now rewrite qtcurrent_spec. Qed.

(** ** C07 *)

Lemma negative_frequency J vj cct resp w num_b row : args_ok cct num_b ->
  qtcurrent J vj cct resp (FList [w]) num_b None = Ok (QRows [row]) ->
  qtcurrent J vj cct resp (FList [(- w)%R]) num_b None = Ok (QRows [map Cconj row]).
Proof.
  intros Ha. rewrite !qt_list by assumption. cbn [map]. intros E. inversion E; subst row. do 3 f_equal.
  unfold spec_row. rewrite tab_map. apply tab_ext. intros i _. apply current_conj.
Qed.

Lemma dc_real J vj cct resp w num_b row : args_ok cct num_b -> round4 w = 0%R ->
  qtcurrent J vj cct resp (FList [w]) num_b None = Ok (QRows [row]) -> map RtoC (map Re row) = row.
Proof.
  intros Ha Hw. rewrite qt_list by assumption. cbn [map]. intros E. inversion E; subst row.
  unfold spec_row. rewrite !tab_map. apply tab_ext. intros i _.
  pose proof (current_dc_real (q_num_p cct) (tones J vj cct num_b i) (freqs cct) (q_vb cct i) resp w Hw) as H.
  destruct (current _ _ _ _ _ _) as [x y]. unfold Im in H. simpl in H. subst y. reflexivity.
Qed.

(** ** C08 *)

Definition thetas_of (cct : qcct) (theta : nat -> R) : list R := map theta (seq 1 (q_num_f cct)).

Lemma all_gauged_map {A} (g g' : A -> tone) (h : A -> R) l :
  (forall x, In x l -> gauged (g x) (g' x) (h x)) -> all_gauged (map g l) (map g' l) (map h l).
Proof.
  induction l as [|x l IH]; intros H; simpl; [exact I|]. split; [apply H; now left|]. apply IH. intros; apply H; now right.
Qed.

Lemma time_shift J vj vj' cct resp w num_b theta psi row : bessel_like J -> args_ok cct num_b ->
  (forall f p i, (1 <= f <= q_num_f cct)%nat -> (1 <= p <= q_num_p cct)%nat -> (i < q_npts cct)%nat ->
     vj' f p i = cis (INR p * theta f) * vj f p i) ->
  (forall a, length a = q_num_f cct -> Forall (fun x => (- Z.of_nat (q_num_p cct) <= x <= Z.of_nat (q_num_p cct))%Z) a ->
     round4 (dot a (freqs cct)) = round4 w -> dot a (thetas_of cct theta) = psi) ->
  qtcurrent J vj cct resp (FList [w]) num_b None = Ok (QRows [row]) ->
  qtcurrent J vj' cct resp (FList [w]) num_b None = Ok (QRows [map (Cmult (cis psi)) row]).
Proof.
  intros HJ Ha Hv Hw. rewrite !qt_list by assumption. cbn [map]. intros E. inversion E; subst row. do 3 f_equal.
  unfold spec_row. rewrite tab_map. apply tab_ext. intros i Hi. destruct Ha as [HF [HP _]].
  apply current_gauged with (thetas := thetas_of cct theta).
  - unfold tones, thetas_of. apply all_gauged_map. intros f Hf. apply in_seq in Hf. rewrite !tone_of_phase.
    split; [reflexivity|]. cbn [t_b t_C]. intros k Hk. apply phase_factor_gauged; [assumption|].
    intros m n Hm. apply JA_rot; [assumption|]. apply Hv; lia.
  - intros a Hin. rewrite tones_length in Hin. apply in_index_vectors in Hin. destruct Hin as [La Hb].
    unfold same_freq. destruct (Req_EM_T _ _) as [Er|]; [|discriminate]. intros _. now apply Hw.
Qed.

(** Distinct multiples of a tone above the resolution are told apart. *)
Lemma round4_close x y : round4 x = round4 y -> (Rabs (x - y) <= / 10000)%R.
Proof.
  intros H. pose proof (round_dec_error 4 x) as Hx. pose proof (round_dec_error 4 y) as Hy.
  fold (round4 x) in Hx. fold (round4 y) in Hy. rewrite H in Hx.
  replace (x - y)%R with (- (round4 y - x) + (round4 y - y))%R by ring.
  eapply Rle_trans; [apply Rabs_triang|]. rewrite Rabs_Ropp.
  assert (E : (/ 2 / 10 ^ 4 = / 20000)%R) by field. rewrite E in *. lra.
Qed.

Lemma multiples_distinct f a b : (/ 10000 < f)%R -> round4 (IZR a * f) = round4 (IZR b * f) -> a = b.
Proof.
  intros Hf H. apply round4_close in H. replace (IZR a * f - IZR b * f)%R with (IZR (a - b) * f)%R in H
    by (rewrite minus_IZR; ring).
  destruct (Z.eq_dec a b) as [|N]; [assumption|exfalso].
  assert (1 <= Rabs (IZR (a - b)))%R. { rewrite <- abs_IZR. apply IZR_le. lia. }
  rewrite Rabs_mult in H. rewrite (Rabs_pos_eq f) in H by lra. nra.
Qed.

Lemma time_shift_one_tone J vj vj' cct resp num_b theta a row : bessel_like J -> args_ok cct num_b ->
  q_num_f cct = 1%nat -> (/ 10000 < q_freq cct 1)%R ->
  (forall p i, (1 <= p <= q_num_p cct)%nat -> (i < q_npts cct)%nat ->
     vj' 1%nat p i = cis (INR p * theta) * vj 1%nat p i) ->
  qtcurrent J vj cct resp (FList [(IZR a * q_freq cct 1)%R]) num_b None = Ok (QRows [row]) ->
  qtcurrent J vj' cct resp (FList [(IZR a * q_freq cct 1)%R]) num_b None =
    Ok (QRows [map (Cmult (cis (IZR a * theta))) row]).
Proof.
  intros HJ Ha HF Hf Hv E. apply (time_shift J vj vj' cct resp _ num_b (fun _ => theta) _ row); auto.
  - intros f p i Hf1 Hp Hi. assert (f = 1%nat) by lia. subst f. now apply Hv.
  - intros x Lx _ Hr. unfold thetas_of, freqs in *. rewrite HF in *. destruct x as [|x0 [|]]; try discriminate Lx.
    simpl in *. rewrite !Rplus_0_r in *. apply multiples_distinct in Hr; [|assumption]. now subst.
Qed.

(** ** C09 *)

Definition reverse_bias (cct : qcct) : qcct :=
  {| q_num_f := q_num_f cct; q_num_p := q_num_p cct; q_npts := q_npts cct; q_freq := q_freq cct;
     q_vb := fun i => (- q_vb cct i)%R |}.

Lemma reversal J vj cct resp l num_b rows : bessel_like J -> args_ok cct num_b ->
  (forall x, Im (resp (- x)%R) = (- Im (resp x))%R /\ Re (resp (- x)%R) = Re (resp x)) ->
  qtcurrent J vj cct resp (FList l) num_b None = Ok (QRows rows) ->
  qtcurrent J (fun f p i => - vj f p i) (reverse_bias cct) resp (FList l) num_b None = Ok (QRows (map (map Copp) rows)).
Proof.
  intros HJ Ha Hr. rewrite !qt_list by assumption. intros E. inversion E; subst rows. do 2 f_equal. rewrite map_map.
  apply map_ext. intros w. unfold spec_row. rewrite tab_map. apply tab_ext. intros i Hi. cbn [reverse_bias q_vb q_num_p].
  change (freqs (reverse_bias cct)) with (freqs cct).
  apply current_reversed.
  - unfold tones. apply Forall2_map_seq. intros f Hf. rewrite !tone_of_phase. split; [reflexivity|]. cbn [t_b t_C].
    intros k Hk. destruct Ha as [_ [HP _]]. apply phase_factor_reversed; [assumption|].
    intros m n Hm. apply JA_neg; [assumption|]. reflexivity.
  - now rewrite tones_length, freqs_length.
  - intros x. destruct (Hr x) as [H1 H2]. destruct (resp (- x)%R), (resp x). unfold Im, Re, Cconj in *. simpl in *. now subst.
Qed.

(** ** C10 *)

Lemma map2_map {A B D E} (f : B -> D -> E) (g : A -> B) (h : A -> D) l :
  map2 f (map g l) (map h l) = map (fun x => f (g x) (h x)) l.
Proof. induction l; simpl; [reflexivity|]. now rewrite IHl. Qed.

Lemma linearity J vj cct r1 r2 l num_b rows1 rows2 (x y : R) : args_ok cct num_b ->
  qtcurrent J vj cct r1 (FList l) num_b None = Ok (QRows rows1) ->
  qtcurrent J vj cct r2 (FList l) num_b None = Ok (QRows rows2) ->
  qtcurrent J vj cct (fun v => RtoC x * r1 v + RtoC y * r2 v) (FList l) num_b None =
    Ok (QRows (map2 (map2 (fun u v => RtoC x * u + RtoC y * v)) rows1 rows2)).
Proof.
  intros Ha. rewrite !qt_list by assumption. intros E1 E2. inversion E1; inversion E2; subst. do 2 f_equal.
  rewrite map2_map. apply map_ext. intros w. unfold spec_row. unfold tab at 2 3. rewrite map2_map.
  apply tab_ext. intros i _. apply current_linear.
Qed.

(** ** C11 *)

Lemma bias_points J vj vj' cct cct' resp l num_b (phi : nat -> nat) rows : args_ok cct num_b ->
  q_num_f cct' = q_num_f cct -> q_num_p cct' = q_num_p cct ->
  (forall f, (1 <= f <= q_num_f cct)%nat -> q_freq cct' f = q_freq cct f) ->
  (forall i, (i < q_npts cct')%nat -> (phi i < q_npts cct)%nat /\ q_vb cct' i = q_vb cct (phi i)) ->
  (forall f p i, (1 <= f <= q_num_f cct)%nat -> (1 <= p <= q_num_p cct)%nat -> (i < q_npts cct')%nat ->
     vj' f p i = vj f p (phi i)) ->
  qtcurrent J vj cct resp (FList l) num_b None = Ok (QRows rows) ->
  qtcurrent J vj' cct' resp (FList l) num_b None =
    Ok (QRows (map (fun row => tab (q_npts cct') (fun i => nth (phi i) row (RtoC 0))) rows)).
Proof.
  intros Ha EF EP Ef Evb Ev. assert (Ha' : args_ok cct' num_b).
  { destruct Ha as [H1 [H2 [H3 H4]]]. unfold args_ok. rewrite EF, EP. repeat split; try tauto.
    intros f Hf. rewrite Ef by assumption. now apply H3. }
  rewrite !qt_list by assumption. intros E. inversion E; subst rows. do 2 f_equal. rewrite map_map.
  apply map_ext. intros w. unfold spec_row at 1. apply tab_ext. intros i Hi. destruct (Evb i Hi) as [Hp Ei].
  unfold spec_row. rewrite tab_nth by assumption. rewrite EP, Ei.
  replace (freqs cct') with (freqs cct).
  - apply current_ext; [|reflexivity]. unfold tones. rewrite EF, EP. apply Forall2_map_seq. intros f Hf.
    rewrite !tone_of_phase. split; [reflexivity|]. intros k _. cbn [t_C]. apply phase_factor_ext.
    intros m n Hm. unfold JA. rewrite Ev, Ef by lia. reflexivity.
  - unfold freqs. rewrite EF. apply map_ext_in. intros f Hf. apply in_seq in Hf. rewrite Ef by lia. reflexivity.
Qed.

(** ** C12, C13 *)

Lemma rows_independent J vj cct resp num_b : args_ok cct num_b ->
  exists row : R -> list C,
    (forall l, qtcurrent J vj cct resp (FList l) num_b None = Ok (QRows (map row l))) /\
    (forall w, qtcurrent J vj cct resp (FScalar w) num_b None =
               Ok (if Req_EM_T (round4 w) 0 then QReal (map Re (row w)) else QRow (row w))) /\
    (forall w, length (row w) = q_npts cct) /\
    (forall w, round4 w = 0%R -> map RtoC (map Re (row w)) = row w) /\
    (forall w w', round4 w = round4 w' -> row w = row w').
Proof.
  intros Ha. exists (spec_row J vj cct resp num_b). split; [|split; [|split; [|split]]].
  - intros l. now rewrite qt_list.
  - intros w. rewrite qtcurrent_spec by auto. unfold Reqb. destruct (Req_EM_T _ _); reflexivity.
  - intros w. apply tab_length.
  - intros w Hw. apply (dc_real J vj cct resp w num_b); auto. now rewrite qt_list.
  - intros w w' E. unfold spec_row. apply tab_ext. intros i _.
    rewrite <- (current_round4 _ _ _ _ _ w), <- (current_round4 _ _ _ _ _ w'). now rewrite E.
Qed.

(** ** C03, C14 supplied matrices *)


Lemma rm_ok_le rm bs bs' rk : Forall2 le bs bs' -> rm_ok rm bs' rk -> rm_ok rm bs rk.
Proof.
  intros Hle H ks Hks. apply H. clear -Hle Hks. revert ks Hks. induction Hle; intros ks Hks; inversion Hks; subst; constructor.
  - lia.
  - now apply IHHle.
Qed.

Lemma supplied_matrix J vj cct cct0 resp fl num_b num_b0 rm : args_ok cct num_b ->
  q_num_f cct0 = q_num_f cct -> q_npts cct0 = q_npts cct ->
  (forall i, q_vb cct0 i = q_vb cct i) -> (forall f, (1 <= f <= q_num_f cct)%nat -> q_freq cct0 f = q_freq cct f) ->
  (q_num_f cct <= length (nbtuple num_b0 (q_num_f cct)))%nat ->
  Forall2 le (truncations num_b (q_num_f cct)) (truncations num_b0 (q_num_f cct)) ->
  interpolate_respfn cct0 resp num_b0 = Ok rm ->
  qtcurrent J vj cct resp fl num_b (Some rm) = qtcurrent J vj cct resp fl num_b None.
Proof.
  intros Ha EF EN Evb Ef Hl Hle ER.
  destruct (interp_ok cct0 resp num_b0) as [rm' [ER' [Hs [Hn Hok]]]].
  { rewrite EF. now destruct Ha. } { rewrite EF. assumption. }
  rewrite ER in ER'. inversion ER'; subst rm'. clear ER'.
  rewrite !qtcurrent_spec; auto. split; [|split].
  - rewrite Hs. unfold box_shape. rewrite map_length, EF. apply firstn_length_le. assumption.
  - now rewrite Hn.
  - apply rm_ok_le with (truncations num_b0 (q_num_f cct)); [assumption|].
    unfold truncations. rewrite EF in Hok. intros ks Hks. destruct (Hok ks Hks) as [v [E Hv]]. exists v. split; [assumption|].
    intros i. rewrite Hv. unfold vbdot. rewrite Evb. do 2 f_equal. f_equal. unfold freqs. rewrite EF.
    apply map_ext_in. intros f Hf. apply in_seq in Hf. apply Ef. lia.
Qed.

Lemma nbtuple_refl_le l : Forall2 le l l.
Proof. induction l; constructor; auto. Qed.

(** A history of calls sharing one matrix. *)
Lemma matrix_reuse J cct resp num_b rm (calls : list ((nat -> nat -> vec) * freq_arg)) : args_ok cct num_b ->
  interpolate_respfn cct resp num_b = Ok rm ->
  map (fun c => qtcurrent J (fst c) cct resp (snd c) num_b (Some rm)) calls =
  map (fun c => qtcurrent J (fst c) cct resp (snd c) num_b None) calls.
Proof.
  intros Ha ER. apply map_ext. intros [vj fl]. apply (supplied_matrix J vj cct cct resp fl num_b num_b rm); auto.
  - now apply nbtuple_ok.
  - apply nbtuple_refl_le.
Qed.

Lemma matrix_built cct resp num_b : args_ok cct num_b -> exists rm, interpolate_respfn cct resp num_b = Ok rm.
Proof.
  intros Ha. destruct (interp_ok cct resp num_b) as [rm [E _]]; [now destruct Ha|now apply nbtuple_ok|]. eauto.
Qed.

(** ** A matrix that is too small *)

Lemma foreach_err {A S} (l : list A) (body : A -> S -> res S) e :
  (forall x acc, In x l -> (exists a', body x acc = Ok a') \/ body x acc = Err e) ->
  (exists x, In x l /\ forall acc, body x acc = Err e) -> forall acc, foreach l body acc = Err e.
Proof.
  induction l as [|x l IH]; intros H [y [Hy Hb]] acc; [destruct Hy|]. cbn [foreach].
  destruct (H x acc (or_introl eq_refl)) as [[a' E]|E]; rewrite E; cbn [bind]; [|reflexivity].
  destruct Hy as [->|Hy]; [rewrite Hb in E; discriminate|]. apply IH; [intros; apply H; now right|eauto].
Qed.

Lemma foreach_ok_or_err {A S} (l : list A) (body : A -> S -> res S) e :
  (forall x acc, In x l -> (exists a', body x acc = Ok a') \/ body x acc = Err e) ->
  forall acc, (exists a', foreach l body acc = Ok a') \/ foreach l body acc = Err e.
Proof.
  induction l as [|x l IH]; intros H acc; [left; now exists acc|]. cbn [foreach].
  destruct (H x acc (or_introl eq_refl)) as [[a' E]|E]; rewrite E; cbn [bind]; [|now right].
  apply IH. intros; apply H; now right.
Qed.

Lemma nbidx_big n k : (Z.of_nat n <= k)%Z -> nbidx n k = Err OutOfBounds.
Proof. intros H. unfold nbidx. replace (pyidx n k) with (@None nat); [reflexivity|]. symmetry. apply pyidx_none. lia. Qed.

Lemma rm_get_dec rm ks : (exists v, rm_get rm ks = Ok v) \/ rm_get rm ks = Err OutOfBounds.
Proof.
  unfold rm_get. destruct (nbidxs (rm_shape rm) ks) as [js|e] eqn:E; [left; eexists; reflexivity|right]. cbn [bind]. f_equal.
  revert ks e E. induction (rm_shape rm) as [|n l IH]; intros [|k ks] e E; simpl in E; try congruence.
  unfold nbidx in E. destruct (pyidx n k); cbn [bind] in E; [|congruence].
  destruct (nbidxs l ks) eqn:E2; cbn [bind] in E; [discriminate|]. inversion E; subst. now apply (IH ks).
Qed.

Lemma small_matrix J vj cct cct0 resp num_b0 b rm w l : args_ok cct (NbInt b) -> q_num_f cct = 1%nat ->
  q_num_f cct0 = 1%nat -> q_npts cct0 = q_npts cct ->
  interpolate_respfn cct0 resp (NbInt num_b0) = Ok rm ->
  (2 * num_b0 + 1 <= b)%nat -> round4 w = 0%R ->
  qtcurrent J vj cct resp (FList (w :: l)) (NbInt b) (Some rm) = Err OutOfBounds.
Proof.
  intros Ha HF HF0 EN ER Hb Hw.
  assert (Hl := nbtuple_ok _ _ Ha). assert (Ha0 := Ha). destruct Ha as [_ [HP [Hfreq _]]].
  assert (Hrm : rm = interpolate_respfn_1_tone resp (q_npts cct0) (q_vb cct0) (q_freq cct0) num_b0).
  { unfold interpolate_respfn in ER. rewrite HF0 in ER. simpl in ER. congruence. }
  unfold qtcurrent. rewrite HF. unfold Rltb at 1. cbn [seq forallb].
  destruct (Rlt_dec 0 (q_freq cct 1)) as [_|C]; [|exfalso; apply C; apply Hfreq; lia].
  cbn [andb guard bind unpack_num_b repeat].
  destruct (calculate_phase_factor_coeff_spec J vj (q_freq cct) (q_num_f cct) (q_num_p cct) (NbInt b)) as
    [ccc [EC [Hnf [Hnk _]]]]; [lia|lia|assumption|]. rewrite HF in EC, Hnf. cbn [Nat.add] in EC. rewrite EC. cbn [bind].
  rewrite Hrm. cbn [rm_shape rm_npts interpolate_respfn_1_tone length Nat.add Nat.eqb guard bind]. rewrite EN, Nat.eqb_refl.
  cbn [guard bind].
  set (rm1 := interpolate_respfn_1_tone resp (q_npts cct0) (q_vb cct0) (q_freq cct0) num_b0).
  assert (CG : forall k, (- Z.of_nat b <= k <= Z.of_nat b)%Z -> exists v, cc_get ccc 1 k = Ok v).
  { intros k Hk. unfold cc_get. rewrite Hnf. rewrite (nbidx_nat (1 + 1) 1 ltac:(lia) : nbidx (1 + 1) 1 = Ok 1%nat).
    cbn [bind]. rewrite Hnk. unfold nbtuple. rewrite HF. cbn [repeat list_max fold_right].
    rewrite Nat.max_0_r. rewrite nbidx_sym by assumption. cbn [bind]. eauto. }
  assert (Dec : forall a k x, (- Z.of_nat b <= k <= Z.of_nat b)%Z ->
     (exists x', (if within b (k + a) then
          let* c1 := cc_get ccc 1 k in let* c1a := cc_get ccc 1 (k + a) in
          let* r := rm_get rm1 [k] in Ok (vadd x (vmul (vmul c1 (vconj c1a)) r)) else Ok x) = Ok x') \/
     (if within b (k + a) then
          let* c1 := cc_get ccc 1 k in let* c1a := cc_get ccc 1 (k + a) in
          let* r := rm_get rm1 [k] in Ok (vadd x (vmul (vmul c1 (vconj c1a)) r)) else Ok x) = Err OutOfBounds).
  { intros a k x Hk. destruct (within b (k + a)) eqn:W; [|left; eauto]. apply within_spec in W.
    destruct (CG k Hk) as [c1 E1]. destruct (CG _ W) as [c2 E2]. rewrite E1, E2. cbn [bind].
    destruct (rm_get_dec rm1 [k]) as [[v E]|E]; rewrite E; cbn [bind]; [left; eauto|now right]. }
  assert (CC : forall a, (exists v, current_coeff_1_tone a ccc rm1 b = Ok v) \/ current_coeff_1_tone a ccc rm1 b = Err OutOfBounds).
  { intros a. unfold current_coeff_1_tone.
    match goal with |- context [foreach (rng b) ?body ?ac0] =>
      destruct (foreach_ok_or_err (rng b) body OutOfBounds) with (acc := ac0) as [[r E]|E] end.
    - intros k [p m] Hk. rewrite rng_sym in Hk. apply in_sym in Hk.
      destruct (Dec a k p Hk) as [[p' Ep]|Ep]; rewrite Ep; cbn [bind]; [|now right].
      destruct (Dec (- a)%Z k m Hk) as [[m' Em]|Em]; replace (k + - a)%Z with (k - a)%Z in Em by lia; rewrite Em; cbn [bind];
        [left; eauto|now right].
    - rewrite E. cbn [bind]. destruct r. left; eauto.
    - rewrite E. now right. }
  assert (C0 : current_coeff_1_tone 0 ccc rm1 b = Err OutOfBounds).
  { unfold current_coeff_1_tone. rewrite foreach_err with (e := OutOfBounds); [reflexivity| |].
    - intros k [p m] Hk. rewrite rng_sym in Hk. apply in_sym in Hk.
      destruct (Dec 0%Z k p Hk) as [[p' Ep]|Ep]; rewrite Ep; cbn [bind]; [|now right].
      destruct (Dec (- 0)%Z k m Hk) as [[m' Em]|Em]; replace (k + - 0)%Z with (k - 0)%Z in Em by lia; rewrite Em; cbn [bind];
        [left; eauto|now right].
    - exists (Z.of_nat b). split; [rewrite rng_sym; apply in_sym; lia|]. intros [p m].
      assert (W : within b (Z.of_nat b + 0) = true) by (apply within_spec; lia). rewrite W, Z.add_0_r.
      destruct (CG (Z.of_nat b) ltac:(lia)) as [c1 E1]. rewrite E1. cbn [bind].
      assert (ER1 : rm_get rm1 [Z.of_nat b] = Err OutOfBounds).
      { unfold rm_get, rm1. cbn [rm_shape interpolate_respfn_1_tone nbidxs]. rewrite nbidx_big by lia. reflexivity. }
      rewrite ER1. reflexivity. }
  cbn [map mapM current_n_tones].
  assert (Row : current_1_tone (round4 w) ccc (q_freq cct) rm1 (q_num_p cct) b = Err OutOfBounds).
  { unfold current_1_tone. cbv zeta. apply foreach_err.
    - intros a cur _. destruct (Reqb _ _); [|left; eauto].
      destruct (CC a) as [[v E]|E]; rewrite E; cbn [bind]; [left; eauto|now right].
    - exists 0%Z. split.
      + unfold harm_range. rewrite <- in_rev, rng_sym. apply in_sym. lia.
      + intros cur. unfold Reqb. rewrite Rmult_0_l, round4_0, Hw, round4_0.
        destruct (Req_EM_T 0 0) as [_|N]; [|now contradiction N]. now rewrite C0. }
  rewrite <- EN in *. fold rm1. rewrite Row. reflexivity.
Qed.

(** ** C15 *)

Lemma num_b_int_tuple J vj cct resp fl n rmo :
  qtcurrent J vj cct resp fl (NbInt n) rmo = qtcurrent J vj cct resp fl (NbTuple (repeat n (q_num_f cct))) rmo.
Proof.
  unfold qtcurrent, interpolate_respfn. cbn [unpack_num_b]. rewrite repeat_length, Nat.leb_refl. cbn [guard bind].
  rewrite firstn_all2 by (rewrite repeat_length; lia). reflexivity.
Qed.

Lemma num_b_too_short J vj cct resp fl l rmo : (length l < q_num_f cct)%nat ->
  qtcurrent J vj cct resp fl (NbTuple l) rmo = Err AssertionError.
Proof.
  intros H. unfold qtcurrent. cbn [unpack_num_b]. destruct (forallb _ _); cbn [guard bind]; [|reflexivity].
  destruct (Nat.leb_spec (q_num_f cct) (length l)); [lia|]. reflexivity.
Qed.

Lemma num_b_extra J vj cct resp fl l extra : args_ok cct (NbTuple l) -> length l = q_num_f cct ->
  (q_num_p cct <= 2)%nat \/ Forall (fun b => (b <= list_max l)%nat) extra ->
  qtcurrent J vj cct resp fl (NbTuple (l ++ extra)) None = qtcurrent J vj cct resp fl (NbTuple l) None.
Proof.
  intros Ha Hl Hx.
  assert (Ha' : args_ok cct (NbTuple (l ++ extra))).
  { destruct Ha as [H1 [H2 [H3 H4]]]. repeat split; try tauto. rewrite app_length. simpl in *. lia. }
  assert (Hc : forall w, spec_row J vj cct resp (NbTuple (l ++ extra)) w = spec_row J vj cct resp (NbTuple l) w).
  { intros w. unfold spec_row. apply tab_ext. intros i Hi. apply current_ext; [|reflexivity].
    unfold tones, nbtuple. apply Forall2_map_seq. intros f Hf. rewrite !tone_of_phase.
    assert (En : nth (f - 1) (l ++ extra) O = nth (f - 1) l O) by (apply app_nth1; lia). rewrite En.
    split; [reflexivity|]. cbn [t_b t_C]. intros k _.
    assert (Hb : (nth (f - 1) l O <= list_max l)%nat) by (apply in_list_max, nth_In; lia).
    destruct Hx as [HP|Hx].
    - apply phase_factor_B_12; [assumption| |assumption]. rewrite list_max_app. lia.
    - replace (list_max (l ++ extra)) with (list_max l); [reflexivity|]. rewrite list_max_app.
      apply list_max_le in Hx. lia. }
  rewrite !qtcurrent_spec by auto. destruct fl as [ws|w]; rewrite ?Hc; [|reflexivity].
  do 2 f_equal. apply map_ext. exact Hc.
Qed.

(** ** C18 *)

Lemma index_vectors_NoDup P n : NoDup (index_vectors P n).
Proof.
  induction n as [|n IH]; simpl; [constructor; [intros []|constructor]|].
  assert (G : forall l : list Z, NoDup l -> NoDup (flat_map (fun a0 => map (cons a0) (index_vectors P n)) l)).
  { induction l as [|x l IHl]; intros ND; simpl; [constructor|]. inversion ND; subst.
    assert (N1 : NoDup (map (cons x) (index_vectors P n))).
    { apply FinFun.Injective_map_NoDup; [|assumption]. intros a b E. now inversion E. }
    assert (D : forall a, In a (map (cons x) (index_vectors P n)) ->
       ~ In a (flat_map (fun a0 => map (cons a0) (index_vectors P n)) l)).
    { intros a Ha Hb. apply in_map_iff in Ha. destruct Ha as [a' [<- _]]. apply in_flat_map in Hb.
      destruct Hb as [y [Hy Hb]]. apply in_map_iff in Hb. destruct Hb as [b' [E _]]. inversion E; subst. contradiction. }
    specialize (IHl H2). clear -N1 IHl D. induction (map (cons x) (index_vectors P n)) as [|y m IHm]; simpl; [assumption|].
    inversion N1; subst. constructor.
    - rewrite in_app_iff. intros [C|C]; [contradiction|]. apply (D y); [now left|assumption].
    - apply IHm; [assumption|]. intros a Ha. apply D. now right. }
  apply G. apply sym_NoDup.
Qed.

Lemma current_more_harmonics P P' ts fs vb resp w : (P <= P')%nat ->
  (forall a, In a (index_vectors P' (length ts)) -> same_freq (dot a fs) w = true -> In a (index_vectors P (length ts))) ->
  current P' ts fs vb resp w = current P ts fs vb resp w.
Proof.
  intros HP H. unfold current. apply csum_support; [apply index_vectors_NoDup|apply index_vectors_NoDup|].
  intros a Ha. destruct (same_freq _ _) eqn:E; [|congruence]. split; [intros; now apply H|].
  intros Hi. apply in_index_vectors in Hi. apply in_index_vectors. split; [tauto|].
  destruct Hi as [_ Hi]. eapply Forall_impl; [|exact Hi]. simpl. intros; lia.
Qed.

Lemma idle_harmonics J vj vj' cct cct' resp w num_b : bessel_like J -> args_ok cct num_b ->
  q_num_f cct' = q_num_f cct -> (q_num_p cct <= q_num_p cct')%nat -> q_npts cct' = q_npts cct ->
  (forall i, (i < q_npts cct)%nat -> q_vb cct' i = q_vb cct i) ->
  (forall f, (1 <= f <= q_num_f cct)%nat -> q_freq cct' f = q_freq cct f) ->
  (forall f p i, (1 <= f <= q_num_f cct)%nat -> (1 <= p <= q_num_p cct')%nat -> (i < q_npts cct)%nat ->
     vj' f p i = if (p <=? q_num_p cct)%nat then vj f p i else RtoC 0) ->
  (forall a, length a = q_num_f cct -> Forall (fun x => (- Z.of_nat (q_num_p cct') <= x <= Z.of_nat (q_num_p cct'))%Z) a ->
     round4 (dot a (freqs cct)) = round4 w -> Forall (fun x => (- Z.of_nat (q_num_p cct) <= x <= Z.of_nat (q_num_p cct))%Z) a) ->
  qtcurrent J vj' cct' resp (FScalar w) num_b None = qtcurrent J vj cct resp (FScalar w) num_b None.
Proof.
  intros HJ Ha EF HP EN Evb Ef Ev Hw.
  assert (Ha' : args_ok cct' num_b).
  { destruct Ha as [H1 [H2 [H3 H4]]]. unfold args_ok. rewrite EF. repeat split; try tauto; try lia.
    intros f Hf. rewrite Ef by assumption. now apply H3. }
  rewrite !qtcurrent_spec by auto.
  assert (E : spec_row J vj' cct' resp num_b w = spec_row J vj cct resp num_b w); [|now rewrite E].
  unfold spec_row. rewrite EN. apply tab_ext. intros i Hi. rewrite Evb by assumption.
  replace (freqs cct') with (freqs cct).
  2:{ unfold freqs. rewrite EF. apply map_ext_in. intros f Hf. apply in_seq in Hf. rewrite Ef by lia. reflexivity. }
  rewrite (current_more_harmonics (q_num_p cct)); [|assumption|].
  - apply current_ext; [|reflexivity]. unfold tones. rewrite EF. apply Forall2_map_seq. intros f Hf. rewrite !tone_of_phase.
    split; [reflexivity|]. cbn [t_b t_C]. intros k Hk.
    assert (Hn := nbtuple_ok _ _ Ha). assert (Hb := nb_le_max num_b (q_num_f cct) f Hn ltac:(lia)).
    destruct Ha as [_ [HP1 _]].
    rewrite (phase_factor_idle _ _ _ (q_num_p cct) (q_num_p cct')); [|lia|lia| |lia].
    + apply phase_factor_ext. intros m n Hm. unfold JA. rewrite Ev, Ef by lia.
      destruct (Nat.leb_spec m (q_num_p cct)); [reflexivity|lia].
    + intros m n Hm. apply JA_zero; [assumption|]. rewrite Ev by lia.
      destruct (Nat.leb_spec m (q_num_p cct)); [lia|reflexivity].
  - intros a Hin. rewrite tones_length, EF in *. apply in_index_vectors in Hin. destruct Hin as [La Hb].
    unfold same_freq. destruct (Req_EM_T _ _) as [Er|]; [|discriminate]. intros _. apply in_index_vectors.
    split; [assumption|]. now apply Hw.
Qed.

Lemma idle_harmonics_one_tone J vj vj' cct cct' resp a num_b : bessel_like J -> args_ok cct num_b ->
  q_num_f cct = 1%nat -> (/ 10000 < q_freq cct 1)%R -> (Z.abs a <= Z.of_nat (q_num_p cct))%Z ->
  q_num_f cct' = 1%nat -> (q_num_p cct <= q_num_p cct')%nat -> q_npts cct' = q_npts cct ->
  (forall i, (i < q_npts cct)%nat -> q_vb cct' i = q_vb cct i) -> q_freq cct' 1%nat = q_freq cct 1%nat ->
  (forall p i, (1 <= p <= q_num_p cct')%nat -> (i < q_npts cct)%nat ->
     vj' 1%nat p i = if (p <=? q_num_p cct)%nat then vj 1%nat p i else RtoC 0) ->
  qtcurrent J vj' cct' resp (FScalar (IZR a * q_freq cct 1)) num_b None =
  qtcurrent J vj cct resp (FScalar (IZR a * q_freq cct 1)) num_b None.
Proof.
  intros HJ Ha HF Hf Ha1 HF' HP EN Evb Ef Ev. apply idle_harmonics; auto; try congruence.
  - intros f Hf1. assert (f = 1%nat) by lia. now subst.
  - intros f p i Hf1. assert (f = 1%nat) by lia. subst. apply Ev.
  - intros x Lx _ Hr. unfold freqs in Hr. rewrite HF in *. destruct x as [|x0 [|]]; try discriminate Lx.
    simpl in Hr. rewrite Rplus_0_r in Hr. apply multiples_distinct in Hr; [|assumption]. subst.
    constructor; [lia|constructor].
Qed.
