(** The currents converge as the truncation grows, faster than any geometric
    sequence, for any number of tones and harmonics. *)
From Coq Require Import List ZArith Bool Reals Lia Lra Psatz.
From Coquelicot Require Import Coquelicot.
From Verif Require Import Base Sums Round Bessel Model_QtCurrent Spec_QtCurrent Spec_QtApi Spec_Power Proof_QtCurrent Proof_QtCurrent2 Proof_QtWit Proof_QtSym Proof_QtApi Proof_Power2 Proof_Bessel Proof_Weights Proof_Decay.
Import ListNotations.
Open Scope R_scope.
Local Notation length := List.length.
Local Notation Forall := List.Forall.

(** ** The sums of eqn 5.25 *)
Definition amp (t : tone) (k : Z) : C := cut (t_b t) (t_C t) k.
Definition geom (K q : R) (t : tone) : Prop := forall k, Cmod (amp t k) <= K * pw q k.
Definition near (K q e : R) (t t' : tone) : Prop := forall k, Cmod (Cminus (amp t k) (amp t' k)) <= K * e * pw q k.
Fixpoint gprod (G : R) (ks : list Z) : R := match ks with [] => 1 | k :: ks => pw G k * gprod G ks end.
Definition grows (M G : R) (rk : list Z -> C) : Prop := forall ks, Cmod (rk ks) <= M * gprod G ks.
Lemma grows_cons M G rk k : grows M G rk -> grows (M * pw G k) G (fun ks => rk (k :: ks)).
Proof. intros H ks. rewrite Rmult_assoc. exact (H (k :: ks)). Qed.
Lemma rs_wide N t ts a0 a rk : (t_b t <= N)%nat ->
  rs_sum (t :: ts) (a0 :: a) rk = csum (sym N) (fun k => Cmult (Cmult (amp t k) (Cconj (amp t (k + a0)%Z))) (rs_sum ts a (fun ks => rk (k :: ks)))).
Proof.
  intros L. cbn [rs_sum]. rewrite <- (csum_cut_sym N (t_b t)) by assumption. apply csum_ext. intros k _. unfold amp at 1. unfold cut at 1 3. destruct (_ <=? _)%Z; [reflexivity|ring].
Qed.
Lemma rs_bounded K q G : 0 <= K -> 0 < q <= 1 -> 1 <= G -> q * G <= / 2 -> forall ts a rk M, Forall (geom K q) ts -> length a = length ts -> 0 <= M -> grows M G rk ->
  Cmod (rs_sum ts a rk) <= (3 * (K * K)) ^ length ts * M.
Proof.
  intros K0 Q G1 QG. induction ts as [|t ts IH]; intros a rk M F L M0 H.
  - destruct a; [|discriminate]. cbn [rs_sum length pow]. rewrite Rmult_1_l. assert (X := H []). cbn in X. lra.
  - destruct a as [|a0 a]; [discriminate|]. inversion F as [|? ? HT FT]; subst. rewrite (rs_wide (t_b t)) by lia. set (m := length ts). assert (KK : 0 <= K * K) by nra. assert (PM : 0 <= (3 * (K * K)) ^ m) by (apply pow_le; lra).
    eapply Rle_trans; [apply Cmod_csum|]. apply Rle_trans with (rsum (sym (t_b t)) (fun k => K * K * ((3 * (K * K)) ^ m * M) * pw (/ 2) k)).
    + apply rsum_le. intros k _. rewrite !Cmod_mult, Cmod_Cconj. assert (PG : 0 < pw G k) by (apply pw_pos; lra). assert (PQ : 0 < pw q k) by (apply pw_pos; lra).
      assert (R := IH a (fun ks => rk (k :: ks)) (M * pw G k) FT ltac:(cbn in L; lia) ltac:(nra) (grows_cons _ _ _ k H)). fold m in R.
      assert (X1 := HT k). assert (X2 := HT (k + a0)%Z). assert (X3 := pw_le_1 q (k + a0) Q). assert (X4 : pw q k * pw G k <= pw (/ 2) k). { rewrite <- pw_mult. apply pow_incr. split; [nra|assumption]. }
      assert (X5 : Cmod (amp t (k + a0)) <= K) by nra. assert (Y1 := Cmod_ge_0 (amp t k)). assert (Y2 := Cmod_ge_0 (amp t (k + a0))). assert (Y3 := Cmod_ge_0 (rs_sum ts a (fun ks => rk (k :: ks)))).
      apply Rle_trans with (K * pw q k * K * ((3 * (K * K)) ^ m * (M * pw G k))).
      { apply Rmult_le_compat; [now apply Rmult_le_pos|assumption| |assumption]. apply Rmult_le_compat; assumption. }
      replace (K * pw q k * K * ((3 * (K * K)) ^ m * (M * pw G k))) with (K * K * ((3 * (K * K)) ^ m * M) * (pw q k * pw G k)) by ring. apply Rmult_le_compat_l; [|assumption]. apply Rmult_le_pos; [assumption|]. now apply Rmult_le_pos.
    + rewrite rsum_scal. assert (S3 := half_sum_le (t_b t)). assert (0 <= K * K * ((3 * (K * K)) ^ m * M)). { apply Rmult_le_pos; [assumption|]. now apply Rmult_le_pos. }
      cbn [length pow]. fold m. nra.
Qed.
Lemma Cconj_minus' a b : Cminus (Cconj a) (Cconj b) = Cconj (Cminus a b). Proof. now rewrite Cconj_minus. Qed.
Lemma rs_near K q G e : 0 <= K -> 0 < q <= 1 -> 1 <= G -> q * G <= / 2 -> 0 <= e -> forall ts ts' a rk M, Forall (geom K q) ts -> Forall (geom K q) ts' -> Forall2 (near K q e) ts ts' -> length a = length ts -> 0 <= M -> grows M G rk ->
  Cmod (Cminus (rs_sum ts a rk) (rs_sum ts' a rk)) <= e * (2 * INR (length ts)) * ((3 * (K * K)) ^ length ts * M).
Proof.
  intros K0 Q G1 QG E0. induction ts as [|t ts IH]; intros ts' a rk M F F' N L M0 H; inversion N as [|? t' ? ts0 HN NT]; subst.
  - destruct a; [|discriminate]. cbn [rs_sum length pow INR]. unfold Cminus. rewrite Cplus_opp_r, Cmod_0. lra.
  - destruct a as [|a0 a]; [discriminate|]. inversion F as [|? ? HT FT]; subst. inversion F' as [|? ? HT' FT']; subst.
    set (W := Nat.max (t_b t) (t_b t')). rewrite (rs_wide W t) by lia. rewrite (rs_wide W t') by lia. assert (LL : length ts0 = length ts) by (clear -NT; induction NT; cbn; congruence). set (m := length ts). assert (KK : 0 <= K * K) by nra. assert (PM : 0 <= (3 * (K * K)) ^ m) by (apply pow_le; lra).
    unfold Cminus. rewrite <- csum_opp, <- csum_plus. eapply Rle_trans; [apply Cmod_csum|]. apply Rle_trans with (rsum (sym W) (fun k => K * K * ((3 * (K * K)) ^ m * M) * (e * (2 * INR m + 2)) * pw (/ 2) k)).
    + apply rsum_le. intros k _. set (r := rs_sum ts a (fun ks => rk (k :: ks))). set (r' := rs_sum ts0 a (fun ks => rk (k :: ks))). set (u := amp t k). set (u' := amp t' k). set (v := amp t (k + a0)). set (v' := amp t' (k + a0)).
      replace (Cplus (Cmult (Cmult u (Cconj v)) r) (Copp (Cmult (Cmult u' (Cconj v')) r'))) with
        (Cplus (Cplus (Cmult (Cmult (Cminus u u') (Cconj v)) r) (Cmult (Cmult u' (Cminus (Cconj v) (Cconj v'))) r)) (Cmult (Cmult u' (Cconj v')) (Cminus r r'))) by ring.
      rewrite Cconj_minus'. assert (PG : 0 < pw G k) by (apply pw_pos; lra). assert (PQ : 0 < pw q k) by (apply pw_pos; lra).
      assert (LA : length a = length ts) by (cbn in L; lia). assert (MG : 0 <= M * pw G k) by nra.
      assert (R : Cmod r <= (3 * (K * K)) ^ m * (M * pw G k)) by (apply (rs_bounded K q G K0 Q G1 QG ts a _ _ FT LA MG (grows_cons _ _ _ k H))).
      assert (D : Cmod (Cminus r r') <= e * (2 * INR m) * ((3 * (K * K)) ^ m * (M * pw G k))) by (apply (IH ts0 a _ _ FT FT' NT LA MG (grows_cons _ _ _ k H))).
      assert (BU : Cmod u' <= K * pw q k) by apply HT'. assert (DU : Cmod (Cminus u u') <= K * e * pw q k) by apply HN.
      assert (BV : Cmod v <= K). { assert (X := HT (k + a0)%Z). assert (Y := pw_le_1 q (k + a0) Q). fold v in X. nra. }
      assert (BV' : Cmod v' <= K). { assert (X := HT' (k + a0)%Z). assert (Y := pw_le_1 q (k + a0) Q). fold v' in X. nra. }
      assert (DV : Cmod (Cminus v v') <= K * e). { assert (X := HN (k + a0)%Z). assert (Y := pw_le_1 q (k + a0) Q). fold v v' in X. assert (0 <= K * e) by nra. nra. }
      eapply Rle_trans; [apply Cmod_triangle|]. eapply Rle_trans; [apply Rplus_le_compat_r, Cmod_triangle|]. rewrite !Cmod_mult, !Cmod_Cconj.
      set (Y := (3 * (K * K)) ^ m * (M * pw G k)) in *. assert (Y0 : 0 <= Y) by (apply Rmult_le_pos; assumption). assert (IM := pos_INR m).
      assert (T1 : Cmod (Cminus u u') * Cmod v * Cmod r <= K * e * pw q k * K * Y). { apply Rmult_le_compat; try apply Cmod_ge_0; [apply Rmult_le_pos; apply Cmod_ge_0| |assumption]. apply Rmult_le_compat; try apply Cmod_ge_0; assumption. }
      assert (T2 : Cmod u' * Cmod (Cminus v v') * Cmod r <= K * pw q k * (K * e) * Y). { apply Rmult_le_compat; try apply Cmod_ge_0; [apply Rmult_le_pos; apply Cmod_ge_0| |assumption]. apply Rmult_le_compat; try apply Cmod_ge_0; assumption. }
      assert (T3 : Cmod u' * Cmod v' * Cmod (Cminus r r') <= K * pw q k * K * (e * (2 * INR m) * Y)). { apply Rmult_le_compat; try apply Cmod_ge_0; [apply Rmult_le_pos; apply Cmod_ge_0| |assumption]. apply Rmult_le_compat; try apply Cmod_ge_0; assumption. }
      apply Rle_trans with (K * K * ((3 * (K * K)) ^ m * M) * (e * (2 * INR m + 2)) * (pw q k * pw G k)). { unfold Y in T1, T2, T3. lra. }
      apply Rmult_le_compat_l. { apply Rmult_le_pos; [|nra]. apply Rmult_le_pos; [assumption|]. now apply Rmult_le_pos. } rewrite <- pw_mult. apply pow_incr. split; [nra|assumption].
    + rewrite rsum_scal. assert (S3 := half_sum_le W). assert (IM := pos_INR m). assert (0 <= K * K * ((3 * (K * K)) ^ m * M) * (e * (2 * INR m + 2))). { apply Rmult_le_pos; [|nra]. apply Rmult_le_pos; [assumption|]. now apply Rmult_le_pos. }
      cbn [length]. rewrite S_INR. cbn [pow]. fold m. nra.
Qed.

(** ** The current *)
Lemma Im_Cmod z : Rabs (Im z) <= Cmod z. Proof. destruct z as [x y]. cbn. eapply Rle_trans; [|apply Rmax_Cmod]. apply Rmax_r. Qed.
Lemma Re_Cmod z : Rabs (Re z) <= Cmod z. Proof. destruct z as [x y]. cbn. eapply Rle_trans; [|apply Rmax_Cmod]. apply Rmax_l. Qed.
Lemma Cmod_parts x y : Cmod (x, y) <= Rabs x + Rabs y.
Proof.
  assert (X := Rabs_pos x). assert (Y := Rabs_pos y). apply Rsqr_incr_0_var; [|lra]. unfold Cmod. cbn [fst snd]. rewrite Rsqr_sqrt by nra.
  unfold Rsqr. rewrite <- (pow2_abs x), <- (pow2_abs y). nra.
Qed.
Lemma coeff_near X ts ts' a rk : Cmod (Cminus (rs_sum ts a rk) (rs_sum ts' a rk)) <= X -> Cmod (Cminus (rs_sum ts (map Z.opp a) rk) (rs_sum ts' (map Z.opp a) rk)) <= X ->
  Cmod (Cminus (coeff ts a rk) (coeff ts' a rk)) <= 4 * X.
Proof.
  unfold coeff. intros H1 H2. set (p := rs_sum ts a rk) in *. set (p' := rs_sum ts' a rk) in *. set (m := rs_sum ts (map Z.opp a) rk) in *. set (m' := rs_sum ts' (map Z.opp a) rk) in *.
  assert (P1 := Im_Cmod (Cminus p p')). assert (P2 := Re_Cmod (Cminus p p')). assert (M1 := Im_Cmod (Cminus m m')). assert (M2 := Re_Cmod (Cminus m m')). assert (X0 := Cmod_ge_0 (Cminus p p')). clearbody p p' m m'. destruct p as [pr pi], p' as [pr' pi'], m as [mr mi], m' as [mr' mi']. cbn [Im Re fst snd Cminus Cplus Copp] in *.
  destruct (forallb _ _).
  - rewrite <- RtoC_minus, Cmod_R. unfold Rminus. lra.
  - unfold Cminus, Cplus, Copp. cbn [fst snd]. eapply Rle_trans; [apply Cmod_parts|].
    replace (pi + mi + - (pi' + mi')) with ((pi + - pi') + (mi + - mi')) by ring. replace (- (pr - mr) + - - (pr' - mr')) with (- (pr + - pr') + (mr + - mr')) by ring.
    assert (A1 := Rabs_triang (pi + - pi') (mi + - mi')). assert (A2 := Rabs_triang (- (pr + - pr')) (mr + - mr')). rewrite Rabs_Ropp in A2. lra.
Qed.
Lemma index_length P n a : In a (index_vectors P n) -> length a = n.
Proof. revert a. induction n as [|n IH]; intros a; cbn [index_vectors]. { intros [<- |[]]. reflexivity. } rewrite in_flat_map. intros [a0 [_ H]]. apply in_map_iff in H. destruct H as [a' [<- H]]. cbn. f_equal. now apply IH. Qed.
Lemma csum_near {A} (l : list A) f g X : (forall x, In x l -> Cmod (Cminus (f x) (g x)) <= X) -> Cmod (Cminus (csum l f) (csum l g)) <= INR (length l) * X.
Proof.
  induction l as [|x l IH]; intros H. { cbn [csum length INR]. unfold Cminus. rewrite Cplus_opp_r, Cmod_0. lra. }
  cbn [csum]. replace (Cminus (Cplus (f x) (csum l f)) (Cplus (g x) (csum l g))) with (Cplus (Cminus (f x) (g x)) (Cminus (csum l f) (csum l g))) by ring.
  eapply Rle_trans; [apply Cmod_triangle|]. cbn [length]. rewrite S_INR. assert (H1 := H x (or_introl eq_refl)). assert (H2 := IH (fun y Hy => H y (or_intror Hy))). lra.
Qed.
Lemma current_near P ts ts' fs vb resp w X : length ts' = length ts -> 0 <= X ->
  (forall a, length a = length ts -> Cmod (Cminus (rs_sum ts a (fun ks => resp (vb + dot ks fs))) (rs_sum ts' a (fun ks => resp (vb + dot ks fs)))) <= X) ->
  Cmod (Cminus (current P ts fs vb resp w) (current P ts' fs vb resp w)) <= INR (length (index_vectors P (length ts))) * (4 * X).
Proof.
  intros L X0 H. unfold current. rewrite L. apply csum_near. intros a Ha. apply index_length in Ha. destruct (same_freq _ _).
  - apply coeff_near; apply H; [assumption|now rewrite map_length].
  - unfold Cminus. rewrite Cplus_opp_r, Cmod_0. lra.
Qed.

(** ** Responses of exponential growth *)
Lemma gprod_pos G ks : 1 <= G -> 1 <= gprod G ks.
Proof. intros H. induction ks as [|k ks IH]; cbn [gprod]; [lra|]. assert (1 <= pw G k) by (apply pow_R1_Rle; lra). nra. Qed.
Lemma dot_exp B fm fs ks : 0 <= B -> 0 <= fm -> (forall f, In f fs -> Rabs f <= fm) -> exp (B * Rabs (dot ks fs)) <= gprod (exp (B * fm)) ks.
Proof.
  intros B0 FM0. assert (G1 : 1 <= exp (B * fm)). { rewrite <- exp_0. apply exp_le. nra. }
  revert ks. induction fs as [|f fs IH]; intros ks H.
  - replace (dot ks []) with 0 by (destruct ks; reflexivity). rewrite Rabs_R0, Rmult_0_r, exp_0. now apply gprod_pos.
  - destruct ks as [|k ks]; cbn [dot gprod]. { rewrite Rabs_R0, Rmult_0_r, exp_0. lra. }
    assert (IH' := IH ks (fun f' Hf => H f' (or_intror Hf))). assert (FM := H f (or_introl eq_refl)).
    apply Rle_trans with (exp (B * Rabs (IZR k * f)) * exp (B * Rabs (dot ks fs))).
    { rewrite <- exp_plus. apply exp_le. pose proof (Rabs_triang (IZR k * f) (dot ks fs)). nra. }
    apply Rmult_le_compat; try (left; apply exp_pos); [|assumption].
    unfold pw. rewrite <- Rpower_pow by apply exp_pos. unfold Rpower. rewrite ln_exp. apply exp_le. rewrite Rabs_mult, <- abs_IZR, INR_IZR_INZ. rewrite Zabs2Nat.id_abs. assert (0 <= IZR (Z.abs k)) by (apply IZR_le; lia). assert (0 <= B * IZR (Z.abs k)) by nra. nra.
Qed.
Lemma finite_bound {A} (l : list A) (Q : A -> R -> Prop) : (forall x K K', In x l -> K <= K' -> Q x K -> Q x K') -> (forall x, In x l -> exists K, 0 <= K /\ Q x K) -> exists K, 0 <= K /\ forall x, In x l -> Q x K.
Proof.
  induction l as [|x l IH]; intros HM H. { exists 0. split; [lra|]. intros x []. }
  destruct (H x (or_introl eq_refl)) as [K1 [P1 H1]]. destruct IH as [K2 [P2 H2]]; [intros y K K' Hy; apply HM; now right|intros y Hy; apply H; now right|].
  exists (Rmax K1 K2). split; [eapply Rle_trans; [exact P1|apply Rmax_l]|]. intros y [<- |Hy].
  - apply (HM x K1); [now left|apply Rmax_l|assumption].
  - apply (HM y K2); [now right|apply Rmax_r|now apply H2].
Qed.

(** ** The simulated currents *)
Lemma tone_near vj cct q i f : 0 < q <= 1 -> (1 <= q_num_p cct)%nat -> exists K, 0 <= K /\ forall B b B' b' n, (n <= b)%nat -> (b <= B)%nat -> (n <= b')%nat -> (b' <= B')%nat ->
  geom K q (tone_of besselJ angle vj (q_freq cct) (q_num_p cct) B b f i) /\
  near K q (q ^ n) (tone_of besselJ angle vj (q_freq cct) (q_num_p cct) B b f i) (tone_of besselJ angle vj (q_freq cct) (q_num_p cct) B' b' f i).
Proof.
  intros Q P. set (A := fun p n => jacobi_anger besselJ (Cmod (vj f p i) / (INR p * q_freq cct f)) (angle (vj f p i)) n).
  assert (HA : forall p, (1 <= p)%nat -> rapid (A p)) by (intros p _; apply rapid_bessel).
  destruct (dominated A HA (q_num_p cct) q P Q) as [K1 [P1 H1]]. destruct (dominated A HA (q_num_p cct) (q * q) P ltac:(nra)) as [K2 [P2 H2]]. destruct (truncated A HA (q_num_p cct) q P Q) as [E [PE HE]].
  exists (Rmax K1 (E + 2 * K2)). split; [eapply Rle_trans; [exact P1|apply Rmax_l]|]. intros B b B' b' n L1 L2 L3 L4. split; intros k; unfold amp, tone_of; cbn [t_b t_C]; fold A.
  - eapply Rle_trans; [apply Cmod_cut|]. eapply Rle_trans; [apply H1|]. apply Rmult_le_compat_r; [left; apply pw_pos; lra|apply Rmax_l].
  - apply Rle_trans with ((E + 2 * K2) * q ^ n * pw q k).
    + apply cut_close; try lra; try lia; try apply H2. apply HE; lia.
    + apply Rmult_le_compat_r; [left; apply pw_pos; lra|]. apply Rmult_le_compat_r; [left; apply pow_lt; lra|apply Rmax_r].
Qed.
Lemma geom_weaken K K' q t : 0 < q -> K <= K' -> geom K q t -> geom K' q t.
Proof. intros Q L H k. eapply Rle_trans; [apply H|]. apply Rmult_le_compat_r; [left; now apply pw_pos|assumption]. Qed.
Lemma near_weaken K K' q e t t' : 0 < q -> 0 <= e -> K <= K' -> near K q e t t' -> near K' q e t t'.
Proof. intros Q E L H k. eapply Rle_trans; [apply H|]. apply Rmult_le_compat_r; [left; now apply pw_pos|]. now apply Rmult_le_compat_r. Qed.
Lemma nb_le l n : (nth n l 0 <= list_max l)%nat.
Proof. revert n. induction l as [|a l IH]; intros [|n]; cbn [nth list_max fold_right]; try lia. specialize (IH n). unfold list_max in IH. lia. Qed.
Lemma at_least_nth n num_b nf f : Forall (le n) (truncations num_b nf) -> (nf <= length (nbtuple num_b nf))%nat -> (1 <= f <= nf)%nat -> (n <= nth (f - 1) (nbtuple num_b nf) 0)%nat.
Proof.
  intros H L F. unfold truncations in H. rewrite Forall_forall in H. apply H. generalize (nbtuple num_b nf) L. intros l LL. assert (FL : length (firstn nf l) = nf) by (rewrite firstn_length; lia).
  replace (nth (f - 1) l 0%nat) with (nth (f - 1) (firstn nf l) 0%nat). { apply nth_In. lia. }
  clear -F LL. assert (G : (f - 1 < nf)%nat) by lia. revert G. generalize (f - 1)%nat. clear F. revert l LL. induction nf as [|nf IH]; intros [|a l] L k G; cbn in *; try lia. destruct k; [reflexivity|]. apply IH; lia.
Qed.
Lemma args_enough cct num_b : args_ok cct num_b -> (q_num_f cct <= length (nbtuple num_b (q_num_f cct)))%nat.
Proof. intros (_ & _ & _ & H). destruct num_b as [n|l]; cbn [nbtuple]; [now rewrite repeat_length|exact H]. Qed.
Lemma tones_near vj cct q i : 0 < q <= 1 -> (1 <= q_num_p cct)%nat -> exists K, 0 <= K /\ forall num_b num_b' n, args_ok cct num_b -> args_ok cct num_b' ->
  Forall (le n) (truncations num_b (q_num_f cct)) -> Forall (le n) (truncations num_b' (q_num_f cct)) ->
  Forall (geom K q) (tones besselJ vj cct num_b i) /\ Forall2 (near K q (q ^ n)) (tones besselJ vj cct num_b i) (tones besselJ vj cct num_b' i).
Proof.
  intros Q P. destruct (finite_bound (seq 1 (q_num_f cct)) (fun f K => forall B b B' b' n, (n <= b)%nat -> (b <= B)%nat -> (n <= b')%nat -> (b' <= B')%nat ->
    geom K q (tone_of besselJ angle vj (q_freq cct) (q_num_p cct) B b f i) /\
    near K q (q ^ n) (tone_of besselJ angle vj (q_freq cct) (q_num_p cct) B b f i) (tone_of besselJ angle vj (q_freq cct) (q_num_p cct) B' b' f i))) as [K [K0 HK]].
  - intros f K K' _ L H B b B' b' n L1 L2 L3 L4. destruct (H B b B' b' n L1 L2 L3 L4) as [X Y]. split; [now apply (geom_weaken K); try lra|apply (near_weaken K); try lra; [left; apply pow_lt; lra|assumption]].
  - intros f _. now apply tone_near.
  - exists K. split; [assumption|]. intros num_b num_b' n A A' T T'.
    assert (G : forall f, In f (seq 1 (q_num_f cct)) -> let nbt := nbtuple num_b (q_num_f cct) in let nbt' := nbtuple num_b' (q_num_f cct) in
      geom K q (tone_of besselJ angle vj (q_freq cct) (q_num_p cct) (list_max nbt) (nth (f - 1) nbt O) f i) /\
      near K q (q ^ n) (tone_of besselJ angle vj (q_freq cct) (q_num_p cct) (list_max nbt) (nth (f - 1) nbt O) f i) (tone_of besselJ angle vj (q_freq cct) (q_num_p cct) (list_max nbt') (nth (f - 1) nbt' O) f i)).
    { intros f Hf nbt nbt'. assert (Hf' := Hf). apply in_seq in Hf'. apply HK; try assumption; try apply nb_le; apply at_least_nth; try assumption; try lia; now apply args_enough. }
    unfold tones. revert G. generalize (seq 1 (q_num_f cct)). cbv zeta. intros l. induction l as [|f l IH]; intros G; cbn [map]; [split; constructor|]. destruct (G f (or_introl eq_refl)). destruct IH; [intros f' Hf'; apply G; now right|]. split; constructor; assumption.
Qed.
Lemma tones_len J vj cct num_b i : length (tones J vj cct num_b i) = q_num_f cct.
Proof. unfold tones. now rewrite map_length, seq_length. Qed.
Theorem point_converges vj cct resp A B q i : 0 <= B -> 0 < q -> (forall v, Cmod (resp v) <= A * exp (B * Rabs v)) -> (1 <= q_num_p cct)%nat ->
  exists K, 0 <= K /\ forall num_b num_b' n w, args_ok cct num_b -> args_ok cct num_b' -> Forall (le n) (truncations num_b (q_num_f cct)) -> Forall (le n) (truncations num_b' (q_num_f cct)) ->
  Cmod (Cminus (current (q_num_p cct) (tones besselJ vj cct num_b i) (freqs cct) (q_vb cct i) resp w) (current (q_num_p cct) (tones besselJ vj cct num_b' i) (freqs cct) (q_vb cct i) resp w)) <= K * q ^ n.
Proof.
  intros B0 Q H P. assert (A0 : 0 <= A). { assert (X := H 0). assert (Y := Cmod_ge_0 (resp 0)). assert (Z := exp_pos (B * Rabs 0)). nra. }
  destruct (finite_bound (freqs cct) (fun f K => Rabs f <= K)) as [fm [FM0 FM]]. { intros; lra. } { intros f _. exists (Rabs f). split; [apply Rabs_pos|lra]. }
  set (G := exp (B * fm)). assert (G1 : 1 <= G). { unfold G. rewrite <- exp_0. apply exp_le. nra. }
  set (q1 := Rmin q (/ (2 * G))). assert (IG : 0 < / (2 * G) <= 1). { split; [apply Rinv_0_lt_compat; lra|]. rewrite <- Rinv_1. apply Rinv_le_contravar; lra. }
  assert (Q1 : 0 < q1 <= 1). { unfold q1. split; [now apply Rmin_pos|]. eapply Rle_trans; [apply Rmin_r|lra]. }
  assert (QG : q1 * G <= / 2). { apply Rle_trans with (/ (2 * G) * G); [|right; field; lra]. apply Rmult_le_compat_r; [lra|apply Rmin_r]. }
  destruct (tones_near vj cct q1 i Q1 P) as [K [K0 HK]]. set (M := A * exp (B * Rabs (q_vb cct i))). assert (M0 : 0 <= M) by (apply Rmult_le_pos; [assumption|left; apply exp_pos]).
  set (m := q_num_f cct). set (X := 2 * INR m * ((3 * (K * K)) ^ m * M)). assert (X0 : 0 <= X). { apply Rmult_le_pos; [pose proof (pos_INR m); lra|]. apply Rmult_le_pos; [apply pow_le; nra|assumption]. }
  exists (INR (length (index_vectors (q_num_p cct) m)) * (4 * X)). split. { apply Rmult_le_pos; [apply pos_INR|lra]. }
  intros num_b num_b' n w HA HA' T T'. destruct (HK num_b num_b' n HA HA' T T') as [F1 N1]. destruct (HK num_b' num_b n HA' HA T' T) as [F2 _].
  assert (E0 : 0 <= q1 ^ n) by (apply pow_le; lra). eapply Rle_trans.
  - apply (current_near _ _ _ _ _ _ _ (q1 ^ n * X)). { now rewrite !tones_len. } { now apply Rmult_le_pos. }
    intros a La. assert (R := rs_near K q1 G (q1 ^ n) K0 Q1 G1 QG E0 _ _ a (fun ks => resp (q_vb cct i + dot ks (freqs cct))) M F1 F2 N1 La M0). rewrite tones_len in R. fold m in R. unfold X. rewrite <- Rmult_assoc. apply R.
    intros ks. eapply Rle_trans; [apply H|]. unfold M. rewrite Rmult_assoc. apply Rmult_le_compat_l; [assumption|]. eapply Rle_trans; [|apply Rmult_le_compat_l; [left; apply exp_pos|apply (dot_exp B fm (freqs cct) ks B0 FM0 FM)]].
    rewrite <- exp_plus. apply exp_le. assert (TR := Rabs_triang (q_vb cct i) (dot ks (freqs cct))). nra.
  - rewrite tones_len. fold m. assert (L : q1 ^ n <= q ^ n). { apply pow_incr. split; [lra|apply Rmin_l]. }
    replace (INR (length (index_vectors (q_num_p cct) m)) * (4 * (q1 ^ n * X))) with (INR (length (index_vectors (q_num_p cct) m)) * (4 * X) * q1 ^ n) by ring. apply Rmult_le_compat_l; [|assumption]. apply Rmult_le_pos; [apply pos_INR|lra].
Qed.
Lemma qt_rows J vj cct resp l num_b rows : args_ok cct num_b -> qtcurrent J vj cct resp (FList l) num_b None = Ok (QRows rows) -> rows = map (spec_row J vj cct resp num_b) l.
Proof. intros A E. rewrite (qtcurrent_spec J vj cct resp (FList l) num_b None A I) in E. now inversion E. Qed.
Lemma nth_mapped {A B} (f : A -> B) l j d d0 : (j < length l)%nat -> nth j (map f l) d = f (nth j l d0).
Proof. intros H. rewrite (nth_indep _ d (f d0)) by now rewrite map_length. apply map_nth. Qed.
Theorem converges vj cct resp A B q : 0 <= B -> 0 < q -> (forall v, Cmod (resp v) <= A * exp (B * Rabs v)) ->
  exists K, 0 <= K /\ forall num_b num_b' n l rows rows' i j, args_ok cct num_b -> args_ok cct num_b' ->
  Forall (le n) (truncations num_b (q_num_f cct)) -> Forall (le n) (truncations num_b' (q_num_f cct)) ->
  qtcurrent besselJ vj cct resp (FList l) num_b None = Ok (QRows rows) -> qtcurrent besselJ vj cct resp (FList l) num_b' None = Ok (QRows rows') ->
  (j < length l)%nat -> (i < q_npts cct)%nat ->
  Cmod (Cminus (nth i (nth j rows []) (RtoC 0)) (nth i (nth j rows' []) (RtoC 0))) <= K * q ^ n.
Proof.
  intros B0 Q H. destruct (le_lt_dec 1 (q_num_p cct)) as [P|P].
  2:{ exists 0. split; [lra|]. intros num_b num_b' n l rows rows' i j (_ & X & _). lia. }
  destruct (finite_bound (seq 0 (q_npts cct)) (fun i K => forall num_b num_b' n w, args_ok cct num_b -> args_ok cct num_b' -> Forall (le n) (truncations num_b (q_num_f cct)) -> Forall (le n) (truncations num_b' (q_num_f cct)) ->
    Cmod (Cminus (current (q_num_p cct) (tones besselJ vj cct num_b i) (freqs cct) (q_vb cct i) resp w) (current (q_num_p cct) (tones besselJ vj cct num_b' i) (freqs cct) (q_vb cct i) resp w)) <= K * q ^ n)) as [K [K0 HK]].
  - intros i K K' _ L G num_b num_b' n w A1 A2 T T'. eapply Rle_trans; [exact (G num_b num_b' n w A1 A2 T T')|]. apply Rmult_le_compat_r; [left; now apply pow_lt|assumption].
  - intros i _. now apply (point_converges vj cct resp A B).
  - exists K. split; [assumption|]. intros num_b num_b' n l rows rows' i j A1 A2 T T' E E' Hj Hi. apply qt_rows in E; [|assumption]. apply qt_rows in E'; [|assumption]. subst rows rows'.
    rewrite !(nth_mapped _ l j [] 0) by assumption. unfold spec_row. rewrite !nth_tab by assumption. apply HK; try assumption. apply in_seq. lia.
Qed.
