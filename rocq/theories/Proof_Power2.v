(** Bounds, truncation errors and power balance: statements about qtcurrent. *)
From Coq Require Import List ZArith Lia Bool Arith Reals Lra.
From Coquelicot Require Import Complex.
From Verif Require Import Base Sums Round Bessel Model_QtCurrent Spec_QtCurrent Spec_QtApi Spec_Power Proof_QtCurrent
  Proof_QtCurrent2 Proof_QtSym Proof_QtApi Proof_QtApi2 Proof_QtWit Proof_Bessel Proof_Bessel2 Proof_Weights Proof_Power Model_Tucker.
Import ListNotations.
Open Scope R_scope.
Local Notation length := List.length.

Lemma nth_tab {A} n (f : nat -> A) i d : (i < n)%nat -> nth i (tab n f) d = f i.
Proof. intros H. unfold tab. rewrite (nth_indep _ _ (f 0%nat)) by (now rewrite map_length, seq_length). rewrite map_nth, seq_nth by assumption. reflexivity. Qed.

Lemma dc_row vj cct resp num_b row : args_ok cct num_b -> qtcurrent besselJ vj cct resp (FScalar 0) num_b None = Ok (QReal row) ->
  forall i, (i < q_npts cct)%nat -> nth i row 0 = Re (current (q_num_p cct) (tones besselJ vj cct num_b i) (freqs cct) (q_vb cct i) resp 0).
Proof.
  intros A. rewrite qtcurrent_spec by auto. unfold Reqb. rewrite round4_0. destruct (Req_EM_T 0 0) as [_|N]; [|now contradiction N]. intros E. inversion E; subst row. clear E.
  intros i Hi. unfold spec_row. rewrite tab_map. now rewrite nth_tab.
Qed.
Theorem dc_bound vj cct resp num_b row i M : args_ok cct num_b -> q_num_p cct = 1%nat -> alone cct 0 (repeat 0%Z (q_num_f cct)) -> (i < q_npts cct)%nat ->
  (forall v, shifted (q_vb cct i) (truncations num_b (q_num_f cct)) (freqs cct) v -> Rabs (Im (resp v)) <= M) ->
  qtcurrent besselJ vj cct resp (FScalar 0) num_b None = Ok (QReal row) ->
  Rabs (nth i row 0) <= captured_all (truncations num_b (q_num_f cct)) (levels vj cct i) * M /\ Rabs (nth i row 0) <= M.
Proof.
  intros A P1 AL Hi B E. rewrite (dc_row vj cct resp num_b row A E i Hi). rewrite alone_dc by (auto using tones_length, round4_0). cbn [Re RtoC fst].
  rewrite <- (tones_weights vj cct num_b i A P1).
  assert (G : Rabs (Im (rs_sum (tones besselJ vj cct num_b i) (repeat 0%Z (length (tones besselJ vj cct num_b i))) (fun ks => resp (q_vb cct i + dot ks (freqs cct))))) <= weights (tones besselJ vj cct num_b i) * M).
  { apply rs_dc. intros ks K. apply B. exists ks. rewrite tones_trunc in K by assumption. auto. }
  split; [exact G|]. eapply Rle_trans; [exact G|]. rewrite (tones_weights vj cct num_b i A P1). destruct (captured_all_bounds (truncations num_b (q_num_f cct)) (levels vj cct i)).
  assert (M0 : 0 <= M). { eapply Rle_trans; [apply Rabs_pos|]. apply (B (q_vb cct i + dot (repeat 0%Z (q_num_f cct)) (freqs cct))). exists (repeat 0%Z (q_num_f cct)). split; [|reflexivity].
    rewrite <- (tones_trunc besselJ vj cct num_b i A). rewrite <- (tones_length besselJ vj cct num_b i). generalize (tones besselJ vj cct num_b i). unfold in_box. induction l as [|t l IH]; cbn [map length repeat]; constructor; [lia|assumption]. }
  nra.
Qed.
Lemma coeff_bound ts a rk M : length a = length ts -> 0 <= M -> (forall ks, in_box (map t_b ts) ks -> Cmod (rk ks) <= M) -> Cmod (coeff ts a rk) <= 2 * (weights ts * M).
Proof.
  intros L HM H. unfold coeff. assert (B1 := rs_bound ts a rk M L HM H). assert (B2 := rs_bound ts (map Z.opp a) rk M ltac:(now rewrite map_length) HM H). set (p := rs_sum ts a rk) in *. set (m := rs_sum ts (map Z.opp a) rk) in *.
  destruct (forallb _ a).
  - rewrite Cmod_R. assert (Rabs (Im p) <= Cmod p). { unfold Cmod, Im. rewrite <- sqrt_Rsqr_abs. apply sqrt_le_1_alt. unfold Rsqr. pose proof (pow2_ge_0 (fst p)). nra. } pose proof (Cmod_ge_0 p). lra.
  - replace (Im p + Im m, - (Re p - Re m)) with (Cmult (0, -1) (Cminus p (Cconj m))) by (unfold Cmult, Cminus, Cplus, Copp, Cconj, Im, Re; apply injective_projections; cbn [fst snd]; ring).
    rewrite Cmod_mult. replace (Cmod (0, -1)) with 1 by (unfold Cmod; cbn [fst snd]; rewrite <- sqrt_1; f_equal; ring). rewrite Rmult_1_l. unfold Cminus. eapply Rle_trans; [apply Cmod_triangle|]. rewrite Cmod_opp, Cmod_Cconj. lra.
Qed.
Theorem ac_bound vj cct resp num_b row w a i M : args_ok cct num_b -> q_num_p cct = 1%nat -> alone cct w a -> (i < q_npts cct)%nat ->
  (forall v, shifted (q_vb cct i) (truncations num_b (q_num_f cct)) (freqs cct) v -> Cmod (resp v) <= M) ->
  qtcurrent besselJ vj cct resp (FList [w]) num_b None = Ok (QRows [row]) -> Cmod (nth i row (RtoC 0)) <= 2 * M.
Proof.
  intros A P1 AL Hi B E. rewrite qt_list in E by assumption. cbn [map] in E. inversion E; subst row. clear E. unfold spec_row. rewrite nth_tab by assumption.
  set (ts := tones besselJ vj cct num_b i).
  assert (LT : length ts = q_num_f cct) by apply tones_length.
  assert (M0 : 0 <= M). { eapply Rle_trans; [apply Cmod_ge_0|]. apply (B (q_vb cct i + dot (repeat 0%Z (q_num_f cct)) (freqs cct))). exists (repeat 0%Z (q_num_f cct)). split; [|reflexivity].
    rewrite <- (tones_trunc besselJ vj cct num_b i A). fold ts. rewrite <- LT. generalize ts. unfold in_box. induction ts0 as [|t l IH]; cbn [map length repeat]; constructor; [lia|assumption]. }
  unfold current. rewrite LT.
  destruct (in_dec (list_eq_dec Z.eq_dec) a (index_vectors (q_num_p cct) (q_num_f cct))) as [IN|NI].
  - rewrite (csum_single _ a); [|apply index_vectors_NoDup|assumption|]. 2:{ intros a' Ha Na. unfold same_freq. destruct (Req_EM_T _ _) as [Q|]; [|reflexivity]. exfalso. apply Na. now apply AL. }
    destruct (same_freq _ _); [|rewrite Cmod_0; lra]. eapply Rle_trans. { apply (coeff_bound ts a _ M); [rewrite LT; now apply index_vectors_length in IN|assumption|]. intros ks K. apply B. exists ks. split; [|reflexivity]. unfold ts in K. now rewrite tones_trunc in K. }
    assert (W := weights_le_1 ts). assert (W1 : weights ts <= 1). { apply W. intros t Ht. unfold ts, tones in Ht. apply in_map_iff in Ht. destruct Ht as [f [<- _]]. rewrite P1, tone_weight. apply captured_bounds. }
    pose proof (weights_nonneg ts). nra.
  - rewrite csum_0; [rewrite Cmod_0; lra|]. intros a' Ha. unfold same_freq. destruct (Req_EM_T _ _) as [Q|]; [|reflexivity]. exfalso. apply NI. rewrite <- (AL a' Ha Q). assumption.
Qed.
Theorem truncation vj cct resp bs bs' row row' i M : args_ok cct (NbTuple bs) -> q_num_p cct = 1%nat -> Forall2 le bs bs' -> alone cct 0 (repeat 0%Z (q_num_f cct)) -> (i < q_npts cct)%nat ->
  (forall v, shifted (q_vb cct i) (truncations (NbTuple bs') (q_num_f cct)) (freqs cct) v -> Rabs (Im (resp v)) <= M) ->
  qtcurrent besselJ vj cct resp (FScalar 0) (NbTuple bs) None = Ok (QReal row) -> qtcurrent besselJ vj cct resp (FScalar 0) (NbTuple bs') None = Ok (QReal row') ->
  Rabs (nth i row' 0 - nth i row 0) <= (1 - captured_all (truncations (NbTuple bs) (q_num_f cct)) (levels vj cct i)) * M.
Proof.
  intros A P1 F AL Hi B E E'. assert (A' : args_ok cct (NbTuple bs')) by (destruct A as (A1 & A2 & A3 & A4); split; [exact A1|split; [exact A2|split; [exact A3|now rewrite <- (Forall2_length F)]]]).
  rewrite (dc_row vj cct resp _ row A E i Hi), (dc_row vj cct resp _ row' A' E' i Hi). rewrite !alone_dc by (auto using tones_length, round4_0). cbn [Re RtoC fst].
  assert (M0 : 0 <= M). { eapply Rle_trans; [apply Rabs_pos|]. apply (B (q_vb cct i + dot (repeat 0%Z (q_num_f cct)) (freqs cct))). exists (repeat 0%Z (q_num_f cct)). split; [|reflexivity].
    rewrite <- (tones_trunc besselJ vj cct _ i A'). rewrite <- (tones_length besselJ vj cct (NbTuple bs') i). generalize (tones besselJ vj cct (NbTuple bs') i). unfold in_box. induction l as [|t l IH]; cbn [map length repeat]; constructor; [lia|assumption]. }
  assert (LG : Forall2 longer (tones besselJ vj cct (NbTuple bs) i) (tones besselJ vj cct (NbTuple bs') i)).
  { unfold tones. rewrite P1. cbn [nbtuple]. generalize (seq 1 (q_num_f cct)). induction l as [|f l IH]; cbn [map]; constructor; [|assumption]. rewrite !tone_of_phase. unfold longer. cbn [t_b t_C].
    assert (LE : (nth (f - 1) bs 0 <= nth (f - 1) bs' 0)%nat). { clear -F. revert F. generalize (f - 1)%nat. intros k F. revert k. induction F as [|x y l l' H F IH]; intros [|k]; cbn [nth]; try lia. apply IH. }
    split; [assumption|]. intros k Hk. rewrite !phase_factor_1. rewrite !cut_in by lia. reflexivity. }
  assert (G := rs_longer _ _ (fun ks => resp (q_vb cct i + dot ks (freqs cct))) M LG M0). destruct G as [_ G]. { intros ks K. apply B. exists ks. rewrite tones_trunc in K by assumption. auto. }
  eapply Rle_trans; [exact G|]. apply Rmult_le_compat_r; [assumption|]. rewrite !tones_weights by assumption. destruct (captured_all_bounds (truncations (NbTuple bs') (q_num_f cct)) (levels vj cct i)). lra.
Qed.
