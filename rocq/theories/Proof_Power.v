(** Bounds, truncation errors and power balance of the tunnelling currents. *)
From Coq Require Import List ZArith Lia Bool Arith Reals Lra.
From Coquelicot Require Import Complex.
From Verif Require Import Base Sums Round Bessel Model_QtCurrent Spec_QtCurrent Spec_QtApi Spec_Power Proof_QtCurrent
  Proof_QtCurrent2 Proof_QtSym Proof_QtApi Proof_QtApi2 Proof_QtWit Proof_Bessel Proof_Bessel2 Proof_Weights Model_Tucker.
Import ListNotations.
Open Scope R_scope.
Local Notation length := List.length.

Lemma zsum_rsum b f : zsum b f = rsum (sym b) f.
Proof. unfold zsum. generalize (sym b). induction l as [|k l IH]; cbn [map fold_right rsum]; [reflexivity|now rewrite IH]. Qed.
Lemma captured_squares b x : captured b x = squares b x.
Proof. unfold captured. now rewrite zsum_rsum, squaresZ. Qed.

(** ** DC *)
Lemma rs_dc ts : forall rk M, (forall ks, in_box (map t_b ts) ks -> Rabs (Im (rk ks)) <= M) -> Rabs (Im (rs_sum ts (repeat 0%Z (length ts)) rk)) <= weights ts * M.
Proof.
  induction ts as [|t ts IH]; intros rk M H.
  - cbn [rs_sum weights length repeat]. rewrite Rmult_1_l. apply H. constructor.
  - cbn [length repeat]. rewrite rs_zero, Im_rsum. cbn [weights]. eapply Rle_trans; [apply rsum_abs|].
    eapply Rle_trans. { apply (rsum_le _ _ (fun k => (weights ts * M) * Cmod (t_C t k) ^ 2)). intros k Hk.
      replace (Im (Cmult (RtoC (Cmod (t_C t k) ^ 2)) (rs_sum ts (repeat 0%Z (length ts)) (fun ks => rk (k :: ks))))) with (Cmod (t_C t k) ^ 2 * Im (rs_sum ts (repeat 0%Z (length ts)) (fun ks => rk (k :: ks)))) by (unfold Cmult, RtoC, Im; cbn [fst snd]; ring).
      rewrite Rabs_mult, (Rabs_pos_eq (Cmod (t_C t k) ^ 2)) by apply pow2_ge_0. rewrite (Rmult_comm (weights ts * M)). apply Rmult_le_compat_l; [apply pow2_ge_0|]. apply IH. intros ks K. apply H. constructor; [now apply in_sym|assumption]. }
    rewrite rsum_scal. unfold weight. right. ring.
Qed.
(** Two truncations of the same coefficients. *)
Lemma zero_vec n : forallb (fun x => x =? 0)%Z (repeat 0%Z n) = true.
Proof. induction n as [|n IH]; [reflexivity|]. cbn. assumption. Qed.
Lemma sym_split b b' : (b <= b')%nat -> exists l r, sym b' = l ++ sym b ++ r.
Proof.
  induction 1 as [|b' H [l [r IH]]]. { exists [], []. now rewrite app_nil_r. }
  rewrite sym_S, IH. exists ((- Z.of_nat (S b'))%Z :: l), (r ++ [Z.of_nat (S b')]). now rewrite !app_assoc.
Qed.
Definition longer (t t' : tone) : Prop := (t_b t <= t_b t')%nat /\ forall k, (- Z.of_nat (t_b t) <= k <= Z.of_nat (t_b t))%Z -> t_C t k = t_C t' k.
Lemma longer_weight t t' : longer t t' -> exists l r, sym (t_b t') = l ++ sym (t_b t) ++ r /\ (forall f : Z -> R, rsum (sym (t_b t')) f = rsum (sym (t_b t)) f + rsum (l ++ r) f) /\ weight t' = weight t + rsum (l ++ r) (fun k => Cmod (t_C t' k) ^ 2).
Proof.
  intros [L E]. destruct (sym_split _ _ L) as [l [r S]]. exists l, r. split; [assumption|].
  assert (Q : forall f : Z -> R, rsum (sym (t_b t')) f = rsum (sym (t_b t)) f + rsum (l ++ r) f) by (intros f; rewrite S, !rsum_app; ring).
  split; [assumption|]. unfold weight. rewrite Q. f_equal. apply rsum_ext. intros k Hk. apply in_sym in Hk. now rewrite E.
Qed.
Lemma rs_longer ts : forall ts' rk M, Forall2 longer ts ts' -> 0 <= M -> (forall ks, in_box (map t_b ts') ks -> Rabs (Im (rk ks)) <= M) ->
  weights ts <= weights ts' /\ Rabs (Im (rs_sum ts' (repeat 0%Z (length ts')) rk) - Im (rs_sum ts (repeat 0%Z (length ts)) rk)) <= (weights ts' - weights ts) * M.
Proof.
  induction ts as [|t ts IH]; intros ts' rk M F HM H; inversion F as [|t0 t' ts0 ts1 HT HTS]; subst.
  - cbn [rs_sum weights length repeat]. split; [lra|]. rewrite Rminus_diag_eq, Rabs_R0 by reflexivity. lra.
  - cbn [length repeat weights]. rewrite !rs_zero, !Im_rsum. destruct (longer_weight t t' HT) as [l [r [S [Q W]]]].
    set (w := fun k => Cmod (t_C t' k) ^ 2). set (X' := fun k => Im (rs_sum ts1 (repeat 0%Z (length ts1)) (fun ks => rk (k :: ks)))). set (X := fun k => Im (rs_sum ts (repeat 0%Z (length ts)) (fun ks => rk (k :: ks)))).
    assert (IM : forall a (z : C), Im (Cmult (RtoC a) z) = a * Im z) by (intros a z; unfold Cmult, RtoC, Im; cbn [fst snd]; ring).
    rewrite (rsum_ext (sym (t_b t')) _ (fun k => w k * X' k)) by (intros k _; apply IM).
    rewrite (rsum_ext (sym (t_b t)) _ (fun k => w k * X k)). 2:{ intros k Hk. rewrite IM. unfold w. apply in_sym in Hk. now rewrite (proj2 HT k Hk). }
    assert (B' : forall k, In k (sym (t_b t')) -> forall ks, in_box (map t_b ts1) ks -> Rabs (Im (rk (k :: ks))) <= M) by (intros k Hk ks K; apply H; constructor; [now apply in_sym|assumption]).
    assert (P0 : weights ts <= weights ts1). { destruct (IH ts1 (fun _ => RtoC 0) 0 HTS) as [A _]; [lra| |exact A]. intros. cbn. rewrite Rabs_R0. lra. }
    assert (WD : 0 <= rsum (l ++ r) w) by (apply rsum_nonneg; intros; apply pow2_ge_0). pose proof (weight_nonneg t). pose proof (weights_nonneg ts). pose proof (weights_nonneg ts1).
    fold w in W. split. { rewrite W. nra. }
    rewrite Q. replace (rsum (sym (t_b t)) (fun k => w k * X' k) + rsum (l ++ r) (fun k => w k * X' k) - rsum (sym (t_b t)) (fun k => w k * X k)) with (rsum (sym (t_b t)) (fun k => w k * (X' k - X k)) + rsum (l ++ r) (fun k => w k * X' k)).
    2:{ rewrite (rsum_ext (sym (t_b t)) (fun k => w k * (X' k - X k)) (fun k => w k * X' k - w k * X k)) by (intros; ring). rewrite rsum_minus. ring. }
    eapply Rle_trans; [apply Rabs_triang|].
    assert (IN : forall k, In k (sym (t_b t)) -> In k (sym (t_b t'))) by (intros k Hk; rewrite S; apply in_or_app; right; apply in_or_app; now left).
    assert (IN2 : forall k, In k (l ++ r) -> In k (sym (t_b t'))) by (intros k Hk; rewrite S; apply in_app_or in Hk; apply in_or_app; destruct Hk; [now left|right; apply in_or_app; now right]).
    assert (T1 : Rabs (rsum (sym (t_b t)) (fun k => w k * (X' k - X k))) <= (weights ts1 - weights ts) * M * weight t).
    { eapply Rle_trans; [apply rsum_abs|]. unfold weight. rewrite <- rsum_scal. apply rsum_le. intros k Hk. rewrite Rabs_mult, (Rabs_pos_eq (w k)) by apply pow2_ge_0. unfold w at 1. assert (Hk' := Hk). apply in_sym in Hk'. rewrite <- (proj2 HT k Hk'). rewrite (Rmult_comm _ (Cmod _ ^ 2)). apply Rmult_le_compat_l; [apply pow2_ge_0|]. apply IH; [assumption|assumption|]. intros ks K. apply (B' k); auto. }
    assert (T2 : Rabs (rsum (l ++ r) (fun k => w k * X' k)) <= weights ts1 * M * rsum (l ++ r) w).
    { eapply Rle_trans; [apply rsum_abs|]. rewrite <- rsum_scal. apply rsum_le. intros k Hk. rewrite Rabs_mult, (Rabs_pos_eq (w k)) by apply pow2_ge_0. rewrite (Rmult_comm _ (w k)). apply Rmult_le_compat_l; [apply pow2_ge_0|]. unfold X'. apply rs_dc. intros ks K. apply (B' k); auto. }
    rewrite W. lra.
Qed.

(** ** Tones without harmonics *)
Lemma JA_mod J vj freq f i n : Cmod (JA J vj freq f 1 i n) = Rabs (besselZ J n (Cmod (vj f 1%nat i) / freq f)).
Proof.
  unfold JA, jacobi_anger. rewrite Cmod_mult, Cmod_R. simpl INR. rewrite Rmult_1_l. rewrite <- (Rmult_1_r (Rabs _)) at 2. f_equal. unfold Cmod, cis. cbn [fst snd]. rewrite <- sqrt_1. f_equal. rewrite <- !Rsqr_pow2. rewrite Rplus_comm. apply sin2_cos2.
Qed.
Lemma tone_weight vj freq B b f i : weight (tone_of besselJ angle vj freq 1 B b f i) = captured b (Cmod (vj f 1%nat i) / freq f).
Proof.
  rewrite tone_of_phase. unfold weight, captured. cbn [t_b t_C]. rewrite zsum_rsum. apply rsum_ext. intros k Hk. rewrite phase_factor_1. rewrite cut_in by now apply in_sym. rewrite JA_mod. apply pow2_abs.
Qed.
Lemma captured_bounds b x : 0 <= captured b x <= 1.
Proof. split; [|rewrite captured_squares; apply squares_le_1]. unfold captured. rewrite zsum_rsum. apply rsum_nonneg. intros; apply pow2_ge_0. Qed.
Lemma tones_b J vj cct num_b i : map t_b (tones J vj cct num_b i) = map (fun f => nth (f - 1) (nbtuple num_b (q_num_f cct)) O) (seq 1 (q_num_f cct)).
Proof. unfold tones. rewrite map_map. reflexivity. Qed.
Lemma firstn_seq_nth n : forall (l : list nat), (n <= length l)%nat -> map (fun f => nth (f - 1) l O) (seq 1 n) = firstn n l.
Proof.
  intros l H. rewrite <- seq_shift, map_map. rewrite (map_ext _ (fun k => nth k l O)) by (intros k; f_equal; lia).
  revert l H. induction n as [|n IH]; intros l H; [reflexivity|]. destruct l as [|a l]; [cbn in H; lia|]. cbn [seq map firstn nth]. f_equal. rewrite <- seq_shift, map_map. cbn [nth]. apply IH. cbn in H. lia.
Qed.
Lemma nbtuple_enough cct num_b : args_ok cct num_b -> (q_num_f cct <= length (nbtuple num_b (q_num_f cct)))%nat.
Proof. intros (_ & _ & _ & H). destruct num_b as [n|l]; cbn [nbtuple]; [now rewrite repeat_length|exact H]. Qed.
Lemma tones_trunc J vj cct num_b i : args_ok cct num_b -> map t_b (tones J vj cct num_b i) = truncations num_b (q_num_f cct).
Proof. intros A. rewrite tones_b. apply firstn_seq_nth. now apply nbtuple_enough. Qed.
Lemma tones_weights vj cct num_b i : args_ok cct num_b -> q_num_p cct = 1%nat -> weights (tones besselJ vj cct num_b i) = captured_all (truncations num_b (q_num_f cct)) (levels vj cct i).
Proof.
  intros A P1. rewrite <- (tones_trunc besselJ vj cct num_b i A). rewrite tones_b. unfold tones, levels, captured_all. rewrite P1. generalize (seq 1 (q_num_f cct)). induction l as [|f l IH]; cbn [map weights List.combine fold_right]; [reflexivity|]. rewrite IH, tone_weight. reflexivity.
Qed.
Lemma captured_all_bounds bs : forall xs, 0 <= captured_all bs xs <= 1.
Proof.
  unfold captured_all. induction bs as [|b bs IH]; intros [|x xs]; cbn; try lra. destruct (IH xs). destruct (captured_bounds b x). unfold captured_all in *. cbn in *. nra.
Qed.
Lemma alone_dc cct ts vb resp w : length ts = q_num_f cct -> alone cct w (repeat 0%Z (q_num_f cct)) -> round4 w = 0 ->
  current (q_num_p cct) ts (freqs cct) vb resp w = RtoC (Im (rs_sum ts (repeat 0%Z (length ts)) (fun ks => resp (vb + dot ks (freqs cct))))).
Proof.
  intros L A W. unfold current. rewrite (csum_single _ (repeat 0%Z (q_num_f cct))).
  - unfold same_freq. assert (D : dot (repeat 0%Z (q_num_f cct)) (freqs cct) = 0). { clear. generalize (freqs cct). induction (q_num_f cct) as [|n IH]; intros [|f l]; cbn; try reflexivity. rewrite IH. ring. }
    rewrite D, W, round4_0. destruct (Req_EM_T 0 0) as [_|N]; [|now contradiction N]. unfold coeff. rewrite zero_vec, <- L. reflexivity.
  - apply index_vectors_NoDup.
  - rewrite L. apply in_index_vectors. split; [apply repeat_length|]. apply Forall_forall. intros k Hk. apply repeat_spec in Hk. subst k. lia.
  - intros a Ha Na. unfold same_freq. destruct (Req_EM_T _ _) as [E|]; [|reflexivity]. exfalso. apply Na. apply A; [now rewrite <- L|exact E].
Qed.
