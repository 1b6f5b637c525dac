(** The properties of qtcurrent that follow from the multi-tone formula. *)
From Coq Require Import List ZArith Lia Bool Arith Reals Lra Permutation.
From Coquelicot Require Import Complex.
From Verif Require Import Base Sums Round Bessel Model_QtCurrent Spec_QtCurrent Spec_QtApi Proof_QtCurrent
  Proof_QtCurrent2 Proof_QtSym.
Import ListNotations.
Open Scope C_scope.

(** ** The phase of a complex number *)

Lemma Cmod_sq z : (Cmod z * Cmod z = fst z * fst z + snd z * snd z)%R.
Proof.
  unfold Cmod. rewrite sqrt_sqrt; [ring|]. pose proof (pow2_ge_0 (fst z)). pose proof (pow2_ge_0 (snd z)). lra.
Qed.

Lemma angle_polar z : z = RtoC (Cmod z) * cis (angle z).
Proof.
  unfold angle, Reqb. destruct (Req_EM_T (Cmod z) 0) as [E|E].
  - apply Cmod_eq_0 in E. subst. rewrite Cmod_0, Cmult_0_l. reflexivity.
  - assert (Hp : (0 < Cmod z)%R) by (pose proof (Cmod_ge_0 z); lra).
    assert (Sq := Cmod_sq z). destruct z as [x y]. simpl in Sq. set (m := Cmod (x, y)) in *. simpl fst. simpl snd.
    assert (B : (-1 <= x / m <= 1)%R).
    { assert (x * x <= m * m)%R by nra. assert (- m <= x <= m)%R by (split; nra). split.
      - apply Rmult_le_reg_r with m; [lra|]. unfold Rdiv. rewrite Rmult_assoc, Rinv_l by lra. lra.
      - apply Rmult_le_reg_r with m; [lra|]. unfold Rdiv. rewrite Rmult_assoc, Rinv_l by lra. lra. }
    assert (Q : (sqrt (1 - (x / m)²) = Rabs y / m)%R).
    { replace (1 - (x / m)²)%R with ((y / m)²)%R.
      - rewrite sqrt_Rsqr_abs. unfold Rdiv. rewrite Rabs_mult. f_equal. apply Rabs_pos_eq. left. now apply Rinv_0_lt_compat.
      - unfold Rsqr. apply Rmult_eq_reg_r with (m * m)%R; [|nra]. field_simplify; [|lra|lra]. nra. }
    unfold Rleb. destruct (Rle_dec 0 y) as [Hy|Hy]; unfold cis, Cmult, RtoC; simpl.
    + rewrite cos_acos, sin_acos by assumption. rewrite Q, Rabs_pos_eq by assumption. f_equal; field; lra.
    + rewrite cos_neg, sin_neg, cos_acos, sin_acos by assumption. rewrite Q, Rabs_left by lra. f_equal; field; lra.
Qed.

Lemma angle_range z : (- PI < angle z <= PI)%R.
Proof.
  pose proof PI_RGT_0. unfold angle, Reqb, Rleb. destruct (Req_EM_T (Cmod z) 0) as [E|E]; [lra|].
  destruct (acos_bound (fst z / Cmod z)) as [H1 H2]. destruct (Rle_dec 0 (snd z)) as [Hy|Hy]; [lra|].
  split; [|lra].
  destruct (Req_dec (acos (fst z / Cmod z)) PI) as [EP|]; [|lra]. exfalso.
  assert (P := angle_polar z). unfold angle, Reqb, Rleb in P. destruct (Req_EM_T (Cmod z) 0); [contradiction|].
  destruct (Rle_dec 0 (snd z)); [contradiction|]. rewrite EP in P. apply (f_equal snd) in P.
  unfold cis, Cmult, RtoC in P; simpl in P. rewrite sin_neg, sin_PI in P. lra.
Qed.

Lemma cis_nat n x y : cis x = cis y -> cis (INR n * x) = cis (INR n * y).
Proof.
  intros H. induction n as [|n IH]; [now rewrite !Rmult_0_l|].
  rewrite S_INR. replace ((INR n + 1) * x)%R with (x + INR n * x)%R by ring.
  replace ((INR n + 1) * y)%R with (y + INR n * y)%R by ring. now rewrite !cis_add, IH, H.
Qed.

Lemma cis_Z n x y : cis x = cis y -> cis (IZR n * x) = cis (IZR n * y).
Proof.
  intros H. assert (N : forall k, cis (INR k * x) = cis (INR k * y)) by (intros; now apply cis_nat).
  destruct (Z.le_gt_cases 0 n) as [Hn|Hn].
  - rewrite <- (Z2Nat.id n) by assumption. rewrite <- INR_IZR_INZ. apply N.
  - replace n with (- Z.of_nat (Z.to_nat (- n)))%Z by lia. rewrite opp_IZR, <- INR_IZR_INZ.
    rewrite <- !Ropp_mult_distr_l, <- !Cconj_cis. f_equal. apply N.
Qed.

Lemma Cmult_reg_l (a b c : C) : a <> RtoC 0 -> a * b = a * c -> b = c.
Proof.
  intros Ha H. assert (E : Cinv a * a = RtoC 1) by (rewrite Cmult_comm; now apply Cinv_r).
  rewrite <- (Cmult_1_l b), <- (Cmult_1_l c), <- E, <- !Cmult_assoc, H. reflexivity.
Qed.

Lemma angle_rot z t : z <> RtoC 0 -> cis (angle (cis t * z)) = cis (t + angle z).
Proof.
  intros Hz. assert (M1 : Cmod (cis t) = 1%R).
  { unfold Cmod, cis; simpl. replace (cos t * (cos t * 1) + sin t * (sin t * 1))%R with ((sin t)² + (cos t)²)%R.
    - rewrite sin2_cos2. apply sqrt_1.
    - unfold Rsqr; ring. }
  assert (H1 := angle_polar (cis t * z)). rewrite Cmod_mult, M1, Rmult_1_l in H1.
  assert (H2 := angle_polar z). assert (Hm : RtoC (Cmod z) <> RtoC 0).
  { intros E. apply RtoC_inj in E. apply Hz. now apply Cmod_eq_0. }
  apply (Cmult_reg_l (RtoC (Cmod z))); [assumption|]. rewrite <- H1, cis_add. rewrite H2 at 1. ring.
Qed.

Lemma Cmod_rot z t : Cmod (cis t * z) = Cmod z.
Proof.
  rewrite Cmod_mult. replace (Cmod (cis t)) with 1%R; [ring|]. unfold Cmod, cis; simpl.
  replace (cos t * (cos t * 1) + sin t * (sin t * 1))%R with ((sin t)² + (cos t)²)%R by (unfold Rsqr; ring).
  rewrite sin2_cos2. symmetry. apply sqrt_1.
Qed.

(** ** Bessel rows of zero, shifted and reversed voltages *)

Lemma besselJ_like : bessel_like besselJ.
Proof. split; [apply besselJ_0_0|apply besselJ_S_0]. Qed.

Section Rows.
Variable J : nat -> R -> R.
Hypothesis HJ : bessel_like J.

Lemma besselZ_0 n : RtoC (besselZ J n 0) = delta n.
Proof.
  destruct HJ as [H0 HS]. unfold besselZ, delta. destruct (Z.ltb_spec n 0).
  - destruct (Z.to_nat (- n)) as [|k] eqn:E; [lia|]. rewrite HS, Rmult_0_r.
    destruct (Z.eqb_spec n 0); [lia|reflexivity].
  - destruct (Z.eqb_spec n 0) as [->|]; [change (Z.to_nat 0) with O; now rewrite H0|].
    destruct (Z.to_nat n) as [|k] eqn:E; [lia|]. now rewrite HS.
Qed.

Lemma jacobi_anger_0 phi n : jacobi_anger J 0 phi n = delta n.
Proof.
  unfold jacobi_anger. rewrite besselZ_0. unfold delta. destruct (Z.eqb_spec n 0) as [->|]; [|ring].
  rewrite Rmult_0_l, Ropp_0, cis_0. ring.
Qed.

Lemma JA_zero vj freq f p i n : vj f p i = RtoC 0 -> JA J vj freq f p i n = delta n.
Proof. intros H. unfold JA. rewrite H, Cmod_0. unfold Rdiv. rewrite Rmult_0_l. apply jacobi_anger_0. Qed.

Lemma JA_rot vj vj' freq f p i n t : vj' f p i = cis t * vj f p i ->
  JA J vj' freq f p i n = cis (- (IZR n * t)) * JA J vj freq f p i n.
Proof.
  intros H. unfold JA. rewrite H, Cmod_rot. destruct (Ceq_dec (vj f p i) (RtoC 0)) as [E|E].
  - rewrite E, Cmod_0. unfold Rdiv. rewrite Rmult_0_l, !jacobi_anger_0. unfold delta.
    destruct (Z.eqb_spec n 0) as [->|]; [|ring]. rewrite Rmult_0_l, Ropp_0, cis_0. ring.
  - unfold jacobi_anger. rewrite !Ropp_mult_distr_l, <- opp_IZR. rewrite (cis_Z (- n) _ _ (angle_rot _ t E)).
    rewrite Rmult_plus_distr_l, cis_add. ring.
Qed.

Lemma besselZ_opp n x : besselZ J (- n) x = ((-1) ^ Z.abs_nat n * besselZ J n x)%R.
Proof.
  assert (E : forall k, ((-1) ^ k * (-1) ^ k = 1)%R) by (intros; rewrite <- Rpow_mult_distr, <- (pow1 k); f_equal; ring).
  unfold besselZ. destruct (Z.ltb_spec (- n) 0), (Z.ltb_spec n 0); try lia.
  - rewrite Z.opp_involutive. now rewrite <- Zabs2Nat.abs_nat_nonneg by lia.
  - replace (Z.to_nat (- n)) with (Z.abs_nat n) by lia. rewrite <- Rmult_assoc, E. ring.
  - assert (n = 0)%Z by lia. subst. simpl. ring.
Qed.

Lemma cis_PI_Z n : cis (- (IZR n * PI)) = RtoC ((-1) ^ Z.abs_nat n).
Proof.
  assert (N : forall k, cis (INR k * PI) = RtoC ((-1) ^ k)).
  { induction k as [|k IH]; [simpl; rewrite Rmult_0_l; apply cis_0|].
    rewrite S_INR. replace ((INR k + 1) * PI)%R with (INR k * PI + PI)%R by ring. rewrite cis_add, IH.
    simpl. unfold cis. rewrite cos_PI, sin_PI. unfold RtoC, Cmult; simpl. f_equal; ring. }
  destruct (Z.le_gt_cases 0 n) as [Hn|Hn].
  - rewrite <- Cconj_cis. replace (IZR n) with (INR (Z.abs_nat n)).
    + rewrite N. apply Cconj_R.
    + rewrite INR_IZR_INZ. f_equal. lia.
  - replace (- (IZR n * PI))%R with (INR (Z.abs_nat n) * PI)%R; [apply N|].
    rewrite INR_IZR_INZ. replace (Z.of_nat (Z.abs_nat n)) with (- n)%Z by lia. rewrite opp_IZR. ring.
Qed.

Lemma JA_neg vj vj' freq f p i n : vj' f p i = - vj f p i ->
  JA J vj' freq f p i n = Cconj (JA J vj freq f p i (- n)%Z).
Proof.
  intros H. rewrite (JA_rot vj vj' freq f p i n PI).
  - unfold JA, jacobi_anger. rewrite Cconj_mult, Cconj_R, Cconj_cis, Ropp_involutive, besselZ_opp, cis_PI_Z, RtoC_mult.
    rewrite opp_IZR, Ropp_mult_distr_l. ring.
  - rewrite H. unfold cis. rewrite cos_PI, sin_PI. unfold Cmult, Copp; simpl. f_equal; ring.
Qed.
End Rows.

(** ** Tones of a simulation *)

Lemma tone_of_phase J vj freq P B b f i :
  tone_of J angle vj freq P B b f i = Tone b (phase_factor B b (fun p => JA J vj freq f p i) P).
Proof. reflexivity. Qed.

Lemma tones_length J vj cct num_b i : length (tones J vj cct num_b i) = q_num_f cct.
Proof. unfold tones. now rewrite map_length, seq_length. Qed.
Lemma freqs_length cct : length (freqs cct) = q_num_f cct.
Proof. unfold freqs. now rewrite map_length, seq_length. Qed.

Lemma nbtuple_ok cct num_b : args_ok cct num_b -> (q_num_f cct <= length (nbtuple num_b (q_num_f cct)))%nat.
Proof. intros [_ [_ [_ H]]]. destruct num_b; simpl; [rewrite repeat_length; lia|assumption]. Qed.

Lemma nb_le_max num_b F f : (F <= length (nbtuple num_b F))%nat -> (1 <= f <= F)%nat ->
  (nth (f - 1) (nbtuple num_b F) O <= list_max (nbtuple num_b F))%nat.
Proof. intros H Hf. apply in_list_max, nth_In. lia. Qed.

Lemma Forall2_map_seq {A B} (P : A -> B -> Prop) (f : nat -> A) (g : nat -> B) s n :
  (forall k, (s <= k < s + n)%nat -> P (f k) (g k)) -> Forall2 P (map f (seq s n)) (map g (seq s n)).
Proof.
  revert s. induction n as [|n IH]; intros s H; simpl; constructor; [apply H; lia|apply IH; intros; apply H; lia].
Qed.

Lemma phase_factor_ext B b A A' p k : (forall m n, (1 <= m <= p)%nat -> A m n = A' m n) ->
  phase_factor B b A p k = phase_factor B b A' p k.
Proof.
  revert k. induction p as [|p IH]; intros k H; [reflexivity|]. destruct (Nat.eq_dec p 0) as [->|Np].
  - rewrite !phase_factor_1. unfold cut. destruct (_ <=? _)%Z; [apply H; lia|reflexivity].
  - rewrite !phase_factor_S by lia. apply csum_ext. intros l _. rewrite H by lia. f_equal.
    unfold cut. destruct (_ <=? _)%Z; [apply IH; intros; apply H; lia|reflexivity].
Qed.

(** Rows are determined by values of the current at the points of the sweep. *)
Lemma qt_rows J vj cct resp l num_b (cur : R -> nat -> C) : args_ok cct num_b ->
  (forall w i, (i < q_npts cct)%nat ->
     current (q_num_p cct) (tones J vj cct num_b i) (freqs cct) (q_vb cct i) resp w = cur w i) ->
  qtcurrent J vj cct resp (FList l) num_b None = Ok (QRows (map (fun w => tab (q_npts cct) (cur w)) l)).
Proof.
  intros Ha H. rewrite qtcurrent_spec by auto. do 2 f_equal. apply map_ext. intros w. apply tab_ext. intros i Hi. now apply H.
Qed.

(** ** C04 no drive *)

Lemma no_drive J vj cct resp l num_b : bessel_like J -> args_ok cct num_b ->
  (forall f p i, (1 <= f <= q_num_f cct)%nat -> (1 <= p <= q_num_p cct)%nat -> (i < q_npts cct)%nat ->
      vj f p i = RtoC 0) ->
  qtcurrent J vj cct resp (FList l) num_b None =
  Ok (QRows (map (fun w => tab (q_npts cct) (fun i =>
        if Req_EM_T (round4 w) 0 then RtoC (Im (resp (q_vb cct i))) else RtoC 0)) l)).
Proof.
  intros HJ Ha Hv. apply qt_rows; [assumption|]. intros w i Hi. assert (Hn := nbtuple_ok _ _ Ha).
  destruct Ha as [HF [HP _]].
  rewrite current_all_idle.
  - unfold same_freq. rewrite round4_0. destruct (Req_EM_T 0 (round4 w)), (Req_EM_T (round4 w) 0); congruence || reflexivity.
  - unfold tones. apply Forall_forall. intros t Ht. apply in_map_iff in Ht. destruct Ht as [f [<- Hf]]. apply in_seq in Hf.
    intros k Hk. cbn [t_b tone_of] in Hk. rewrite tone_of_phase. cbn [t_C].
    assert (Hb := nb_le_max num_b (q_num_f cct) f Hn ltac:(lia)).
    apply phase_factor_delta; [lia|assumption| |lia].
    intros m n Hm. apply JA_zero; [assumption|]. apply Hv; lia.
  - now rewrite tones_length, freqs_length.
Qed.

(** ** C05 permuting tones *)

Lemma list_max_perm l l' : Permutation l l' -> list_max l = list_max l'.
Proof. induction 1; simpl; try lia. Qed.

Lemma nth_seq_id {A} (l : list A) d : map (fun f => nth (f - 1) l d) (seq 1 (length l)) = l.
Proof.
  rewrite <- seq_shift, map_map. transitivity (map (fun i => nth i l d) (seq 0 (length l))).
  - apply map_ext. intros i. f_equal. lia.
  - induction l as [|x l IH]; [reflexivity|]. simpl. f_equal. rewrite <- seq_shift, map_map. exact IH.
Qed.

Lemma zip2_map {A} (g : A -> tone) (h : A -> R) (l : list A) : zip2 (map g l) (map h l) = map (fun x => (g x, h x)) l.
Proof. induction l; simpl; [reflexivity|]. now rewrite IHl. Qed.

Lemma relabel J vj cct resp fl num_b sigma :
  args_ok cct num_b -> match num_b with NbInt _ => True | NbTuple l => length l = q_num_f cct end ->
  Permutation (map sigma (seq 1 (q_num_f cct))) (seq 1 (q_num_f cct)) ->
  qtcurrent J (fun f => vj (sigma f)) (permute_cct sigma cct) resp fl (permute_nb sigma num_b) None =
  qtcurrent J vj cct resp fl num_b None.
Proof.
  intros Ha Hl Hs.
  assert (Hr : forall f, (1 <= f <= q_num_f cct)%nat -> (1 <= sigma f <= q_num_f cct)%nat).
  { intros f Hf. assert (I : In (sigma f) (seq 1 (q_num_f cct))).
    { eapply Permutation_in; [exact Hs|]. apply in_map. apply in_seq. lia. }
    apply in_seq in I. lia. }
  assert (Ha' : args_ok (permute_cct sigma cct) (permute_nb sigma num_b)).
  { destruct Ha as [HF [HP [Hf Hn]]]. split; [assumption|]. split; [assumption|]. split.
    - intros f Hf'. simpl in *. apply Hf. now apply Hr.
    - destruct num_b; simpl; [exact I|]. rewrite map_length, seq_length. simpl in Hl. lia. }
  assert (Hnb : forall f, (1 <= f <= q_num_f cct)%nat ->
    nth (f - 1) (nbtuple (permute_nb sigma num_b) (q_num_f cct)) O = nth (sigma f - 1) (nbtuple num_b (q_num_f cct)) O).
  { intros f Hf. specialize (Hr f Hf). destruct num_b as [n|l]; simpl.
    - rewrite (nth_indep _ O n), (nth_indep (repeat n (q_num_f cct)) O n) by (rewrite repeat_length; lia).
      now rewrite !nth_repeat.
    - rewrite Hl. rewrite (nth_indep _ O (nth (sigma O - 1) l O)) by (rewrite map_length, seq_length; lia).
      rewrite (map_nth (fun f => nth (sigma f - 1) l O)), seq_nth by lia. f_equal. f_equal. f_equal. lia. }
  assert (Hmax : list_max (nbtuple (permute_nb sigma num_b) (q_num_f cct)) = list_max (nbtuple num_b (q_num_f cct))).
  { destruct num_b as [n|l]; simpl; [reflexivity|]. rewrite Hl. apply list_max_perm.
    rewrite <- (map_map sigma (fun f => nth (f - 1) l O)). apply Permutation_trans with (map (fun f => nth (f - 1) l O) (seq 1 (q_num_f cct))).
    - now apply Permutation_map.
    - rewrite <- Hl, nth_seq_id. apply Permutation_refl. }
  assert (Hc : forall w, spec_row J (fun f => vj (sigma f)) (permute_cct sigma cct) resp (permute_nb sigma num_b) w =
                     spec_row J vj cct resp num_b w).
  { intros w. unfold spec_row. apply tab_ext. intros i _. cbn [q_num_p q_vb permute_cct].
    apply current_perm; [now rewrite freqs_length, tones_length|now rewrite freqs_length, tones_length|].
    unfold tones, freqs. cbn [q_num_f q_num_p q_freq permute_cct]. rewrite !zip2_map, Hmax.
    erewrite map_ext_in.
    2:{ intros f Hf. apply in_seq in Hf. rewrite Hnb by lia. reflexivity. }
    set (g := fun f => (tone_of J angle vj (q_freq cct) (q_num_p cct) (list_max (nbtuple num_b (q_num_f cct)))
                (nth (f - 1) (nbtuple num_b (q_num_f cct)) 0%nat) f i, q_freq cct f)).
    change (Permutation (map (fun f => g (sigma f)) (seq 1 (q_num_f cct))) (map g (seq 1 (q_num_f cct)))).
    rewrite <- (map_map sigma g). now apply Permutation_map. }
  rewrite !qtcurrent_spec by auto. destruct fl as [l|w]; rewrite ?Hc; [|reflexivity].
  do 2 f_equal. apply map_ext. exact Hc.
Qed.

(** ** C06 idle tone *)

(** num_b with an entry for one more tone. *)
Lemma list_max_repeat n k : list_max (repeat n (S k)) = n.
Proof. induction k; simpl in *; lia. Qed.

Lemma idle_tone J vj vj' cct cct' resp fl num_b b :
  bessel_like J -> args_ok cct num_b -> args_ok cct' (extend_nb num_b b) ->
  match num_b with NbInt _ => True | NbTuple l => length l = q_num_f cct end ->
  q_num_f cct' = S (q_num_f cct) -> q_num_p cct' = q_num_p cct -> q_npts cct' = q_npts cct ->
  (forall i, (i < q_npts cct)%nat -> q_vb cct' i = q_vb cct i) ->
  (forall f, (1 <= f <= q_num_f cct)%nat -> q_freq cct' f = q_freq cct f) ->
  (forall f p i, (1 <= f <= q_num_f cct)%nat -> (1 <= p <= q_num_p cct)%nat -> (i < q_npts cct)%nat ->
      vj' f p i = vj f p i) ->
  (forall p i, (1 <= p <= q_num_p cct)%nat -> (i < q_npts cct)%nat -> vj' (S (q_num_f cct)) p i = RtoC 0) ->
  (q_num_p cct <= 2)%nat \/ (b <= list_max (nbtuple num_b (q_num_f cct)))%nat ->
  qtcurrent J vj' cct' resp fl (extend_nb num_b b) None = qtcurrent J vj cct resp fl num_b None.
Proof.
  intros HJ Ha Ha' Hl EF EP EN Evb Ef Ev Hz Hb.
  set (F := q_num_f cct) in *. set (P := q_num_p cct) in *.
  set (nbt := nbtuple num_b F). set (nbt' := nbtuple (extend_nb num_b b) (S F)).
  assert (Lt : length nbt = F).
  { unfold nbt. destruct num_b; simpl; [apply repeat_length|assumption]. }
  assert (F1 : (1 <= F)%nat) by (destruct Ha as [? _]; lia).
  assert (P1 : (1 <= P)%nat) by (destruct Ha as [_ [? _]]; assumption).
  assert (Hnb : forall f, (1 <= f <= F)%nat -> nth (f - 1) nbt' O = nth (f - 1) nbt O).
  { intros f Hf. unfold nbt', nbt. destruct num_b as [n|l]; simpl.
    - destruct (f - 1)%nat as [|q] eqn:Eq; [destruct F; [lia|reflexivity]|].
      rewrite (nth_indep _ O n) by (rewrite repeat_length; lia).
      rewrite (nth_indep (repeat n F) O n) by (rewrite repeat_length; lia). now rewrite !nth_repeat.
    - apply app_nth1. lia. }
  assert (Hmax : (P <= 2)%nat \/ list_max nbt' = list_max nbt).
  { destruct Hb as [Hb|Hb]; [now left|right]. unfold nbt', nbt. destruct num_b as [n|l]; simpl.
    - destruct F; [lia|]. simpl. rewrite Nat.max_assoc, Nat.max_id. reflexivity.
    - rewrite list_max_app. simpl in *. fold F in Hb. lia. }
  assert (Hge : (list_max nbt <= list_max nbt')%nat).
  { unfold nbt', nbt. destruct num_b as [n|l]; simpl; [lia|]. rewrite list_max_app. lia. }
  assert (Hc : forall w, spec_row J vj' cct' resp (extend_nb num_b b) w = spec_row J vj cct resp num_b w).
  { intros w. unfold spec_row. rewrite EN. apply tab_ext. intros i Hi. rewrite EP, Evb by assumption. fold P.
    transitivity (current P (tones J vj' cct' (extend_nb num_b b) i) (freqs cct ++ [q_freq cct' (S F)]) (q_vb cct i) resp w).
    { f_equal. unfold freqs. rewrite EF. fold F. rewrite seq_S, map_app. f_equal. apply map_ext_in. intros f Hf.
      apply in_seq in Hf. apply Ef. lia. }
    set (tid := tone_of J angle vj' (q_freq cct') P (list_max nbt') (nth F nbt' O) (S F) i).
    assert (Et : tones J vj' cct' (extend_nb num_b b) i =
       map (fun f => tone_of J angle vj' (q_freq cct') P (list_max nbt') (nth (f - 1) nbt' O) f i) (seq 1 F) ++ [tid]).
    { unfold tones. rewrite EF, EP. fold F P. fold nbt'. rewrite seq_S, map_app. f_equal. simpl.
      now rewrite Nat.sub_0_r. }
    rewrite Et. set (ts := map _ (seq 1 F)).
    transitivity (current P (tid :: ts) (q_freq cct' (S F) :: freqs cct) (q_vb cct i) resp w).
    { apply current_perm.
      - rewrite !app_length. simpl. unfold ts, freqs. now rewrite !map_length.
      - simpl. unfold ts, freqs. now rewrite !map_length.
      - assert (Z : forall (ts : list tone) fs t f, length fs = length ts -> zip2 (ts ++ [t]) (fs ++ [f]) = zip2 ts fs ++ [(t, f)]).
        { clear. induction ts as [|t0 ts IH]; intros [|f0 fs] t f L; try discriminate; [reflexivity|].
          simpl. f_equal. apply IH. now inversion L. }
        rewrite Z by (unfold ts, freqs; now rewrite !map_length). cbn [zip2]. symmetry. apply Permutation_cons_append. }
    rewrite current_idle_hd.
    - apply current_ext; [|reflexivity]. unfold ts, tones. fold F P nbt. apply Forall2_map_seq. intros f Hf.
      rewrite !tone_of_phase. split; [cbn [t_b]; apply Hnb; lia|]. cbn [t_b t_C]. intros k Hk. rewrite Hnb in * by lia.
      assert (Hbm : (nth (f - 1) nbt O <= list_max nbt)%nat) by (apply in_list_max, nth_In; lia).
      transitivity (phase_factor (list_max nbt') (nth (f - 1) nbt O) (fun p => JA J vj (q_freq cct) f p i) P k).
      + apply phase_factor_ext. intros m n Hm. unfold JA. rewrite Ev, Ef by lia. reflexivity.
      + destruct Hmax as [HP2|E]; [apply phase_factor_B_12; lia|now rewrite E].
    - intros k Hk. unfold tid in *. rewrite tone_of_phase in *. cbn [t_b t_C] in *.
      assert (Hbm : (nth F nbt' O <= list_max nbt')%nat).
      { apply in_list_max, nth_In. unfold nbt'. destruct num_b; simpl; [rewrite repeat_length; lia|].
        rewrite app_length. simpl in *. lia. }
      apply phase_factor_delta; [assumption|assumption| |lia].
      intros m n Hm. apply JA_zero; [assumption|]. now apply Hz. }
  rewrite !qtcurrent_spec by auto. destruct fl as [l|w]; rewrite ?Hc; [|reflexivity].
  do 2 f_equal. apply map_ext. exact Hc.
Qed.
