(** The tunnelling current changes at most in proportion to the junction voltages: all tones
    and harmonics. *)
From Coq Require Import List ZArith Lia Bool Arith Reals Lra.
From Coquelicot Require Import Coquelicot.
From Verif Require Import Base Sums Round Bessel Model_QtCurrent Spec_QtCurrent Spec_QtApi Proof_QtCurrent Proof_QtCurrent2 Proof_QtSym
  Proof_QtApi Proof_QtApi2 Proof_QtWit Proof_Bessel Proof_Weights Proof_Converge Proof_Power3 Model_HB Spec_HB Spec_HBConv Proof_HBConv Proof_HBLip.
Import ListNotations.
Local Notation length := List.length.
Open Scope R_scope.

Lemma rsum_const_le {A} (l : list A) f m : (forall x, In x l -> f x <= m) -> rsum l f <= INR (length l) * m.
Proof.
  induction l as [|x l IH]; intros H; [cbn; lra|]. cbn [rsum length]. rewrite S_INR. specialize (IH (fun y Y => H y (or_intror Y))). specialize (H x (or_introl eq_refl)). lra.
Qed.
Lemma csum_le {A} (l : list A) f m : (forall x, In x l -> Cmod (f x) <= m) -> Cmod (csum l f) <= INR (length l) * m.
Proof. intros H. eapply Rle_trans; [apply Cmod_csum|]. now apply rsum_const_le. Qed.
Lemma csum_diff_le {A} (l : list A) f g m : (forall x, In x l -> Cmod (f x - g x)%C <= m) -> Cmod (csum l f - csum l g)%C <= INR (length l) * m.
Proof. intros H. unfold Cminus. rewrite <- csum_opp, <- csum_plus. now apply csum_le. Qed.
Lemma mult_diff x x' y y' : Cmod (x * y - x' * y')%C <= Cmod (x - x')%C * Cmod y + Cmod x' * Cmod (y - y')%C.
Proof. replace (x * y - x' * y')%C with ((x - x') * y + x' * (y - y'))%C by ring. eapply Rle_trans; [apply Cmod_triangle|]. rewrite !Cmod_mult. lra. Qed.

(** Two numbers of size at most [m] that differ by at most [e]. *)
Definition close (m e : R) (x x' : C) : Prop := Cmod x <= m /\ Cmod x' <= m /\ Cmod (x - x')%C <= e.
Lemma close_le m e m' e' x x' : close m e x x' -> m <= m' -> e <= e' -> close m' e' x x'.
Proof. intros [A [B D]] L1 L2. split; [lra|]. split; lra. Qed.
Lemma close_0 m e x : 0 <= e -> Cmod x <= m -> close m e x x.
Proof. intros E H. split; [assumption|]. split; [assumption|]. replace (x - x)%C with (RtoC 0) by ring. rewrite Cmod_0. assumption. Qed.
Lemma close_mult m e m' e' x x' y y' : close m e x x' -> close m' e' y y' -> close (m * m') (e * m' + m * e') (x * y)%C (x' * y')%C.
Proof.
  intros [A [B D]] [A' [B' D']]. pose proof (Cmod_ge_0 x). pose proof (Cmod_ge_0 x'). pose proof (Cmod_ge_0 y). pose proof (Cmod_ge_0 y'). pose proof (Cmod_ge_0 (x - x')%C). pose proof (Cmod_ge_0 (y - y')%C).
  split; [rewrite Cmod_mult; apply Rmult_le_compat; assumption|]. split; [rewrite Cmod_mult; apply Rmult_le_compat; assumption|].
  eapply Rle_trans; [apply mult_diff|]. apply Rplus_le_compat; apply Rmult_le_compat; assumption.
Qed.
Lemma close_csum {A} (l : list A) m e f g : (forall x, In x l -> close m e (f x) (g x)) -> close (INR (length l) * m) (INR (length l) * e) (csum l f) (csum l g).
Proof. intros H. split; [apply csum_le; intros x X; apply (H x X)|]. split; [apply csum_le; intros x X; apply (H x X)|]. apply csum_diff_le. intros x X; apply (H x X). Qed.
Lemma close_conj m e x x' : close m e x x' -> close m e (Cconj x) (Cconj x').
Proof.
  intros [A [B D]]. assert (M : forall z, Cmod (Cconj z) = Cmod z) by (intros z; unfold Cmod, Cconj; cbn [fst snd]; f_equal; ring). split; [now rewrite M|]. split; [now rewrite M|].
  replace (Cconj x - Cconj x')%C with (Cconj (x - x')%C); [now rewrite M|]. unfold Cconj, Cminus, Cplus, Copp; cbn [fst snd]. f_equal; ring.
Qed.
Lemma close_cut m e b f g : 0 <= m -> 0 <= e -> (forall k, close m e (f k) (g k)) -> forall k, close m e (cut b f k) (cut b g k).
Proof. intros M E H k. unfold cut. destruct (_ <=? _)%Z; [apply H|]. apply close_0; [assumption|rewrite Cmod_0; assumption]. Qed.

(** ** The coefficients of a tone *)
Lemma phase_close B b p : exists M, 1 <= M /\ forall A A' e, 0 <= e -> (forall r n, (1 <= r <= p)%nat -> close 1 e (A r n) (A' r n)) ->
  forall k, close M (M * e) (phase_factor B b A p k) (phase_factor B b A' p k).
Proof.
  induction p as [|p IH].
  - exists 1. split; [lra|]. intros A A' e E _ k. cbn [phase_factor]. apply close_0; [lra|]. destruct (_ =? _)%Z; [rewrite Cmod_1; lra|rewrite Cmod_0; lra].
  - destruct p as [|p].
    + exists 1. split; [lra|]. intros A A' e E H k. cbn [phase_factor]. rewrite Rmult_1_l. apply close_cut; [lra|assumption|]. intros n. apply H. lia.
    + destruct IH as [M [M1 HM]]. set (N := INR (length (sym b))). exists (1 + N * (2 * M)). assert (N0 : 0 <= N) by apply pos_INR. split; [nra|]. intros A A' e E H k.
      eapply close_le; [cbn [phase_factor]; apply (close_csum (sym b) M (2 * M * e)); intros l _|fold N; nra|fold N; nra].
      eapply close_le; [apply close_mult; [apply close_cut; [| |intros n; apply (HM A A' e E); intros r n' Hr; apply H; lia]|apply H; lia]|lra|lra].
      * lra.
      * apply Rmult_le_pos; lra.
Qed.

(** ** The sums over the tones *)
Fixpoint rs_abs (bs : list nat) (rk : list Z -> C) : R :=
  match bs with [] => Cmod (rk []) | b :: bs' => rsum (sym b) (fun k => rs_abs bs' (fun ks => rk (k :: ks))) end.
Lemma rs_abs_0 bs rk : 0 <= rs_abs bs rk.
Proof. revert rk. induction bs as [|b bs IH]; intros rk; [apply Cmod_ge_0|]. cbn [rs_abs]. apply rsum_nonneg. intros; apply IH. Qed.
Definition tone_close (M e : R) (t t' : tone) : Prop := t_b t = t_b t' /\ forall k, close M (M * e) (t_C t k) (t_C t' k).

Lemma rs_close M e ts ts' : 1 <= M -> 0 <= e -> Forall2 (tone_close M e) ts ts' -> forall a rk, length a = length ts ->
  close (M ^ (2 * length ts) * rs_abs (map t_b ts) rk) (2 * INR (length ts) * M ^ (2 * length ts) * rs_abs (map t_b ts) rk * e) (rs_sum ts a rk) (rs_sum ts' a rk).
Proof.
  intros M1 E. induction 1 as [|t t' ts ts' [TB TC] H IH]; intros a rk La.
  - destruct a; [|discriminate]. cbn [rs_sum map rs_abs length INR]. change (M ^ (2 * 0)) with 1. apply close_0; right; ring.
  - destruct a as [|a0 a]; [discriminate|]. cbn [rs_sum map rs_abs]. rewrite <- TB. cbn [length] in *. injection La as La. rewrite S_INR.
    set (n := length ts) in *. set (m := INR n) in *. replace (2 * S n)%nat with (S (S (2 * n))) by lia. cbn [pow]. set (X := M ^ (2 * n)) in *.
    assert (X0 : 0 <= X) by (apply pow_le; lra).
    assert (ST : forall k, close (M * (M * X) * rs_abs (map t_b ts) (fun ks => rk (k :: ks))) (2 * (m + 1) * (M * (M * X)) * e * rs_abs (map t_b ts) (fun ks => rk (k :: ks)))
      (t_C t k * Cconj (cut (t_b t) (t_C t) (k + a0)%Z) * rs_sum ts a (fun ks => rk (k :: ks)))%C (t_C t' k * Cconj (cut (t_b t) (t_C t') (k + a0)%Z) * rs_sum ts' a (fun ks => rk (k :: ks)))%C).
    { intros k. specialize (IH a (fun ks => rk (k :: ks)) La). set (Z := rs_abs _ _) in *. assert (Z0 : 0 <= Z) by apply rs_abs_0.
      eapply close_le; [apply close_mult; [apply close_mult; [apply TC|apply close_conj, (close_cut M (M * e)); [lra|apply Rmult_le_pos; lra|apply TC]]|exact IH]|right; ring|right; ring]. }
    split; [|split].
    + eapply Rle_trans; [apply Cmod_csum|]. rewrite <- rsum_scal. apply rsum_le. intros k _. apply ST.
    + eapply Rle_trans; [apply Cmod_csum|]. rewrite <- rsum_scal. apply rsum_le. intros k _. apply ST.
    + unfold Cminus. rewrite <- csum_opp, <- csum_plus. eapply Rle_trans; [apply Cmod_csum|]. rewrite Rmult_assoc, (Rmult_comm (rsum _ _)), <- Rmult_assoc, <- rsum_scal. apply rsum_le. intros k _. apply ST.
Qed.
Lemma part_le z : Rabs (fst z) <= Cmod z /\ Rabs (snd z) <= Cmod z.
Proof. pose proof (Rmax_Cmod z) as H. pose proof (Rmax_l (Rabs (fst z)) (Rabs (snd z))). pose proof (Rmax_r (Rabs (fst z)) (Rabs (snd z))). lra. Qed.
Lemma cmod_parts z : Cmod z <= Rabs (fst z) + Rabs (snd z).
Proof.
  unfold Cmod. rewrite <- (sqrt_pow2 (Rabs (fst z) + Rabs (snd z))); [|pose proof (Rabs_pos (fst z)); pose proof (Rabs_pos (snd z)); lra]. apply sqrt_le_1_alt.
  rewrite <- (pow2_abs (fst z)), <- (pow2_abs (snd z)). pose proof (Rabs_pos (fst z)); pose proof (Rabs_pos (snd z)). nra.
Qed.
Lemma coeff_close ts ts' a rk m e : close m e (rs_sum ts a rk) (rs_sum ts' a rk) -> close m e (rs_sum ts (map Z.opp a) rk) (rs_sum ts' (map Z.opp a) rk) -> close (4 * m) (4 * e) (coeff ts a rk) (coeff ts' a rk).
Proof.
  intros [A [B D]] [A' [B' D']]. unfold coeff. set (x := rs_sum ts a rk) in *. set (x' := rs_sum ts' a rk) in *. set (y := rs_sum ts (map Z.opp a) rk) in *. set (y' := rs_sum ts' (map Z.opp a) rk) in *.
  assert (G : forall z r, Cmod z <= r -> - r <= fst z <= r /\ - r <= snd z <= r). { intros z r Hz. destruct (part_le z) as [P1 P2]. split; apply Rabs_le_between; lra. }
  assert (Q : forall u w r, - r <= u <= r -> - r <= w <= r -> Cmod (u, w) <= 2 * r). { intros u w r U W. eapply Rle_trans; [apply cmod_parts|]. cbn [fst snd]. apply Rabs_le_between in U. apply Rabs_le_between in W. lra. }
  apply G in A. apply G in B. apply G in D. apply G in A'. apply G in B'. apply G in D'. unfold Cminus, Cplus, Copp in D, D'. cbn [fst snd] in D, D'. unfold Re, Im.
  replace (4 * m) with (2 * (2 * m)) by ring. replace (4 * e) with (2 * (2 * e)) by ring.
  destruct (forallb _ a); unfold close, Cminus, Cplus, Copp, RtoC; cbn [fst snd]; split; [|split| |split]; apply Q; lra.
Qed.

(** ** The current *)
Definition load (P : nat) (bs : list nat) (fs : list R) (vb : R) (resp : R -> C) (M : R) : R := INR (length (index_vectors P (length bs))) * (4 * (M ^ (2 * length bs) * rs_abs bs (fun ks => resp (vb + dot ks fs)))).
Lemma current_close P M e ts ts' fs vb resp w : 1 <= M -> 0 <= e -> Forall2 (tone_close M e) ts ts' ->
  close (load P (map t_b ts) fs vb resp M) (2 * INR (length ts) * load P (map t_b ts) fs vb resp M * e) (current P ts fs vb resp w) (current P ts' fs vb resp w).
Proof.
  intros M1 E H. assert (LE : length ts' = length ts) by (symmetry; exact (Forall2_length H)). unfold current, load. rewrite LE, map_length. set (rk := fun ks => resp (vb + dot ks fs)). set (Y := M ^ (2 * length ts) * rs_abs (map t_b ts) rk).
  assert (Y0 : 0 <= Y) by (apply Rmult_le_pos; [apply pow_le; lra|apply rs_abs_0]).
  eapply close_le; [apply (close_csum _ (4 * Y) (4 * (2 * INR (length ts) * Y * e)))|lra|right; ring].
  intros a Ia. apply index_length in Ia. assert (F0 : 0 <= 4 * (2 * INR (length ts) * Y * e)). { pose proof (pos_INR (length ts)). apply Rmult_le_pos; [lra|]. apply Rmult_le_pos; [|assumption]. apply Rmult_le_pos; [lra|assumption]. }
  destruct (same_freq _ _); [|apply close_0; [assumption|rewrite Cmod_0; lra]]. fold rk.
  apply coeff_close; (eapply close_le; [apply (rs_close M e ts ts' M1 E H)|unfold Y; lra|unfold Y; right; ring]); [assumption|rewrite map_length; assumption].
Qed.

Lemma finite_bound n (a : nat -> R) : exists G, 0 <= G /\ forall k, (k <= n)%nat -> a k <= G.
Proof.
  induction n as [|n [G [G0 H]]]; [exists (Rmax 0 (a 0%nat)); split; [apply Rmax_l|intros k K; replace k with 0%nat by lia; apply Rmax_r]|].
  exists (Rmax G (a (S n))). split; [eapply Rle_trans; [exact G0|apply Rmax_l]|]. intros k K. destruct (Nat.eq_dec k (S n)) as [->|N]; [apply Rmax_r|]. eapply Rle_trans; [apply H; lia|apply Rmax_l].
Qed.
Lemma finite_choice n (Q : nat -> R -> Prop) : (forall k, (k <= n)%nat -> exists M, 1 <= M /\ forall M', M <= M' -> Q k M') -> exists M, 1 <= M /\ forall k, (k <= n)%nat -> Q k M.
Proof.
  intros H. assert (G : forall m, (m <= n)%nat -> exists M, 1 <= M /\ forall M', M <= M' -> forall k, (k <= m)%nat -> Q k M').
  { induction m as [|m IH]; intros L.
    - destruct (H 0%nat L) as [M [M1 HM]]. exists M. split; [assumption|]. intros M' LM k K. replace k with 0%nat by lia. now apply HM.
    - destruct IH as [M [M1 HM]]; [lia|]. destruct (H (S m) L) as [M2 [M21 HM2]]. exists (Rmax M M2). split; [eapply Rle_trans; [exact M1|apply Rmax_l]|]. intros M' LM k K.
      pose proof (Rmax_l M M2). pose proof (Rmax_r M M2). destruct (Nat.eq_dec k (S m)) as [->|N]; [apply HM2; lra|apply HM; [lra|lia]]. }
  destruct (G n (Nat.le_refl n)) as [M [M1 HM]]. exists M. split; [assumption|]. apply HM. lra.
Qed.

(** The current is bounded, and its change is at most in proportion to that of the voltages. *)
Theorem any_current_lip q resp num_b : args_ok q num_b -> exists L, 0 < L /\ forall v w om i, (i < q_npts q)%nat ->
  let I v := current (q_num_p q) (tones besselJ v q num_b i) (freqs q) (q_vb q i) resp om in
  Cmod (I v) <= L /\ Cmod (I v - I w)%C <= L * distance q v w i.
Proof.
  intros [HF [HP [Hw _]]]. set (nbt := nbtuple num_b (q_num_f q)).
  destruct (finite_choice (q_num_f q) (fun f M => forall A A' e, 0 <= e -> (forall r n, (1 <= r <= q_num_p q)%nat -> close 1 e (A r n) (A' r n)) ->
    forall k, close M (M * e) (phase_factor (list_max nbt) (nth (f - 1) nbt O) A (q_num_p q) k) (phase_factor (list_max nbt) (nth (f - 1) nbt O) A' (q_num_p q) k))) as [M [M1 HM]].
  { intros f _. destruct (phase_close (list_max nbt) (nth (f - 1) nbt O) (q_num_p q)) as [M [M1 H]]. exists M. split; [assumption|]. intros M' LM A A' e E HA k. eapply close_le; [exact (H A A' e E HA k)|assumption|]. apply Rmult_le_compat_r; assumption. }
  destruct (finite_bound (q_num_f q) (fun f => / q_freq q f)) as [G [G0 HG]].
  set (bs := map (fun f => nth (f - 1) nbt O) (seq 1 (q_num_f q))).
  destruct (finite_bound (q_npts q) (fun i => load (q_num_p q) bs (freqs q) (q_vb q i) resp M)) as [Y [Y0 HY]].
  set (n := INR (length bs)). assert (n0 : 0 <= n) by apply pos_INR.
  exists (1 + Y + 2 * n * Y * G). assert (T0 : 0 <= 2 * n * Y * G) by (repeat apply Rmult_le_pos; try assumption; lra). split; [lra|]. intros v w om i Hi I.
  assert (D0 : forall u u' : arr3, 0 <= distance q u u' i) by (intros; apply total_ge0; intros; apply Cmod_ge_0).
  assert (TB : forall u, map t_b (tones besselJ u q num_b i) = bs). { intros u. unfold tones, bs. rewrite map_map. reflexivity. }
  assert (CL : close (load (q_num_p q) bs (freqs q) (q_vb q i) resp M) (2 * n * load (q_num_p q) bs (freqs q) (q_vb q i) resp M * (G * distance q v w i)) (I v) (I w)).
  { unfold I, n. rewrite <- (TB v), map_length. apply current_close; [assumption|apply Rmult_le_pos; [assumption|apply D0]|]. unfold tones. apply Forall2_map_seq. intros g Hg. split; [reflexivity|]. unfold tone_of. cbn [t_C]. apply HM; [lia|apply Rmult_le_pos; [assumption|apply D0]|].
    intros r k Hr. assert (W : 0 < q_freq q g) by (apply Hw; lia). assert (R1 : 1 <= INR r) by (change 1 with (INR 1); apply le_INR; lia).
    split; [apply coef_le1|]. split; [apply coef_le1|]. eapply Rle_trans; [apply drive_lip; apply Rmult_lt_0_compat; lra|]. unfold Rdiv. rewrite Rmult_comm. apply Rmult_le_compat; [apply Rlt_le, Rinv_0_lt_compat; nra|apply Cmod_ge_0| |].
    - apply Rle_trans with (/ q_freq q g); [apply Rinv_le_contravar; nra|apply HG; lia].
    - apply (total_term q (fun f p => Cmod (v f p i - w f p i)%C)); [intros; apply Cmod_ge_0|split; lia]. }
  specialize (HY i ltac:(lia)). destruct CL as [C1 [_ C3]]. cbv beta in HY. split; [lra|]. eapply Rle_trans; [exact C3|]. rewrite <- Rmult_assoc. apply Rmult_le_compat_r; [apply D0|].
  assert (L0 : 2 * n * G * load (q_num_p q) bs (freqs q) (q_vb q i) resp M <= 2 * n * G * Y) by (apply Rmult_le_compat_l; [repeat apply Rmult_le_pos; try assumption; lra|assumption]). lra.
Qed.
Theorem current_lip q resp num_b : args_ok q num_b -> exists L, 0 < L /\ forall v w f p i, (i < q_npts q)%nat ->
  Cmod (current_at besselJ q resp num_b v f p i) <= L /\ Cmod (current_at besselJ q resp num_b v f p i - current_at besselJ q resp num_b w f p i)%C <= L * distance q v w i.
Proof. intros H. destruct (any_current_lip q resp num_b H) as [L [L0 HL]]. exists L. split; [assumption|]. intros v w f p i Hi. exact (HL v w (q_freq q f * INR p) i Hi). Qed.

(** The same of what a call returns. *)
Theorem qt_lip q resp num_b : args_ok q num_b -> exists L, 0 < L /\ forall v w fl rv rw,
  qtcurrent besselJ v q resp (FList fl) num_b None = Ok (QRows rv) -> qtcurrent besselJ w q resp (FList fl) num_b None = Ok (QRows rw) ->
  forall m i, (m < length fl)%nat -> (i < q_npts q)%nat ->
  Cmod (nth i (nth m rv []) (RtoC 0)) <= L /\ Cmod (nth i (nth m rv []) (RtoC 0) - nth i (nth m rw []) (RtoC 0))%C <= L * distance q v w i.
Proof.
  intros H. destruct (any_current_lip q resp num_b H) as [L [L0 HL]]. exists L. split; [assumption|]. intros v w fl rv rw Ev Ew m i Hm Hi.
  rewrite (qtcurrent_spec besselJ v q resp (FList fl) num_b None H I) in Ev. rewrite (qtcurrent_spec besselJ w q resp (FList fl) num_b None H I) in Ew.
  assert (N : forall u r, Ok (QRows (map (spec_row besselJ u q resp num_b) fl)) = Ok (QRows r) -> nth i (nth m r []) (RtoC 0) = current (q_num_p q) (tones besselJ u q num_b i) (freqs q) (q_vb q i) resp (nth m fl 0)).
  { intros u r E. assert (r = map (spec_row besselJ u q resp num_b) fl) by congruence. subst r. rewrite (nth_indep _ [] (spec_row besselJ u q resp num_b 0)) by (rewrite map_length; assumption). rewrite map_nth. unfold spec_row. now rewrite tab_nth. }
  rewrite (N v rv Ev), (N w rw Ew). exact (HL v w (nth m fl 0) i Hi).
Qed.
