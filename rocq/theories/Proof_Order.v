(** Order, slopes and gaps of the pumped I-V curve. *)
From Coq Require Import List ZArith Lia Bool Arith Reals Lra.
From Coquelicot Require Import Complex.
From Verif Require Import Base Sums Round Bessel Model_QtCurrent Spec_QtCurrent Spec_QtApi Spec_Power Spec_Order Proof_QtCurrent
  Proof_QtCurrent2 Proof_QtSym Proof_QtApi Proof_QtApi2 Proof_QtWit Proof_Bessel Proof_Bessel2 Proof_Weights Proof_Power Proof_Power2 Model_Tucker.
Import ListNotations.
Open Scope R_scope.
Local Notation length := List.length.

Lemma dc_sum J vj cct resp num_b row : args_ok cct num_b -> alone cct 0 (repeat 0%Z (q_num_f cct)) -> qtcurrent J vj cct resp (FScalar 0) num_b None = Ok (QReal row) ->
  forall i, (i < q_npts cct)%nat -> nth i row 0 = Im (rs_sum (tones J vj cct num_b i) (repeat 0%Z (length (tones J vj cct num_b i))) (fun ks => resp (q_vb cct i + dot ks (freqs cct)))).
Proof.
  intros A AL. rewrite qtcurrent_spec by auto. unfold Reqb. rewrite round4_0. destruct (Req_EM_T 0 0) as [_|N]; [|now contradiction N]. intros E. inversion E; subst row. clear E.
  intros i Hi. unfold spec_row. rewrite tab_map. rewrite nth_tab by assumption. rewrite alone_dc by (auto using tones_length, round4_0). reflexivity.
Qed.
Lemma same_tones J vj cct num_b i j : same_drive vj cct i j -> Forall2 tone_eq (tones J vj cct num_b i) (tones J vj cct num_b j).
Proof.
  intros S. unfold tones. assert (G : forall f, In f (seq 1 (q_num_f cct)) -> (1 <= f <= q_num_f cct)%nat) by (intros f H; apply in_seq in H; lia). revert G. generalize (seq 1 (q_num_f cct)). induction l as [|f l IH]; intros G; cbn [map]; constructor.
  - split; [reflexivity|]. intros k _. cbn [t_C tone_of]. apply phase_factor_ext. intros p n Hp. rewrite (S f p) by (auto using in_eq). reflexivity.
  - apply IH. intros g Hg. apply G. now right.
Qed.
(** Weighted sums with weights that are not negative. *)
Lemma rs_combine ts : forall rk rk' m, (forall ks, in_box (map t_b ts) ks -> Im (rk ks) + m <= Im (rk' ks)) ->
  Im (rs_sum ts (repeat 0%Z (length ts)) rk) + weights ts * m <= Im (rs_sum ts (repeat 0%Z (length ts)) rk').
Proof.
  induction ts as [|t ts IH]; intros rk rk' m H.
  - cbn [rs_sum weights length repeat]. rewrite Rmult_1_l. apply H. constructor.
  - cbn [length repeat]. rewrite !rs_zero, !Im_rsum. cbn [weights]. unfold weight.
    assert (IM : forall a (z : C), Im (Cmult (RtoC a) z) = a * Im z) by (intros a z; unfold Cmult, RtoC, Im; cbn [fst snd]; ring).
    rewrite (rsum_ext (sym (t_b t)) (fun x => Im (Cmult _ (rs_sum ts _ (fun ks => rk (x :: ks))))) (fun k => Cmod (t_C t k) ^ 2 * Im (rs_sum ts (repeat 0%Z (length ts)) (fun ks => rk (k :: ks))))) by (intros k _; apply IM).
    rewrite (rsum_ext (sym (t_b t)) (fun x => Im (Cmult _ (rs_sum ts _ (fun ks => rk' (x :: ks))))) (fun k => Cmod (t_C t k) ^ 2 * Im (rs_sum ts (repeat 0%Z (length ts)) (fun ks => rk' (k :: ks))))) by (intros k _; apply IM).
    replace (rsum (sym (t_b t)) (fun k => Cmod (t_C t k) ^ 2) * weights ts * m) with (rsum (sym (t_b t)) (fun k => (weights ts * m) * Cmod (t_C t k) ^ 2)) by (rewrite rsum_scal; ring).
    rewrite <- rsum_plus. apply rsum_le. intros k Hk.
    assert (Q : Im (rs_sum ts (repeat 0%Z (length ts)) (fun ks => rk (k :: ks))) + weights ts * m <= Im (rs_sum ts (repeat 0%Z (length ts)) (fun ks => rk' (k :: ks)))).
    { apply IH. intros ks K. apply H. constructor; [now apply in_sym|assumption]. }
    pose proof (pow2_ge_0 (Cmod (t_C t k))) as P. nra.
Qed.

Lemma dc_compare J vj cct resp resp' num_b row row' i j m : args_ok cct num_b -> alone cct 0 (repeat 0%Z (q_num_f cct)) -> (i < q_npts cct)%nat -> (j < q_npts cct)%nat -> same_drive vj cct i j ->
  (forall s, shifted 0 (truncations num_b (q_num_f cct)) (freqs cct) s -> Im (resp (q_vb cct i + s)) + m <= Im (resp' (q_vb cct j + s))) ->
  qtcurrent J vj cct resp (FScalar 0) num_b None = Ok (QReal row) -> qtcurrent J vj cct resp' (FScalar 0) num_b None = Ok (QReal row') ->
  nth i row 0 + weights (tones J vj cct num_b i) * m <= nth j row' 0.
Proof.
  intros A AL Hi Hj S H E E'. rewrite (dc_sum J vj cct resp num_b row A AL E i Hi), (dc_sum J vj cct resp' num_b row' A AL E' j Hj).
  pose proof (same_tones J vj cct num_b i j S) as T. rewrite (tones_length J vj cct num_b j), <- (tones_length J vj cct num_b i). rewrite <- (rs_sum_ext _ _ T _ _ _ (fun ks => eq_refl)).
  apply rs_combine. intros ks K. rewrite tones_trunc in K by assumption. apply H. exists ks. split; [assumption|ring].
Qed.

(** C154 *)
Lemma dc_order J vj cct resp resp' num_b row row' i : args_ok cct num_b -> alone cct 0 (repeat 0%Z (q_num_f cct)) -> (i < q_npts cct)%nat ->
  (forall v, shifted (q_vb cct i) (truncations num_b (q_num_f cct)) (freqs cct) v -> Im (resp v) <= Im (resp' v)) ->
  qtcurrent J vj cct resp (FScalar 0) num_b None = Ok (QReal row) -> qtcurrent J vj cct resp' (FScalar 0) num_b None = Ok (QReal row') ->
  nth i row 0 <= nth i row' 0.
Proof.
  intros A AL Hi H E E'. pose proof (dc_compare J vj cct resp resp' num_b row row' i i 0 A AL Hi Hi ltac:(intros f p _ _; reflexivity)) as G. rewrite Rmult_0_r, Rplus_0_r in G. apply G; try assumption.
  intros s [ks [K ->]]. rewrite Rplus_0_r. apply H. exists ks. split; [assumption|ring].
Qed.
Lemma dc_monotone J vj cct resp num_b row i j : args_ok cct num_b -> alone cct 0 (repeat 0%Z (q_num_f cct)) -> (i < q_npts cct)%nat -> (j < q_npts cct)%nat -> same_drive vj cct i j ->
  (forall x y, x <= y -> Im (resp x) <= Im (resp y)) -> q_vb cct i <= q_vb cct j -> qtcurrent J vj cct resp (FScalar 0) num_b None = Ok (QReal row) -> nth i row 0 <= nth j row 0.
Proof.
  intros A AL Hi Hj S M L E. pose proof (dc_compare J vj cct resp resp num_b row row i j 0 A AL Hi Hj S) as G. rewrite Rmult_0_r, Rplus_0_r in G. apply G; try assumption. intros s _. rewrite Rplus_0_r. apply M. lra.
Qed.
Lemma dc_slopes vj cct resp num_b row i j a b : args_ok cct num_b -> q_num_p cct = 1%nat -> alone cct 0 (repeat 0%Z (q_num_f cct)) -> (i < q_npts cct)%nat -> (j < q_npts cct)%nat -> same_drive vj cct i j ->
  (forall x y, x <= y -> a * (y - x) <= Im (resp y) - Im (resp x) <= b * (y - x)) -> q_vb cct i <= q_vb cct j -> qtcurrent besselJ vj cct resp (FScalar 0) num_b None = Ok (QReal row) ->
  let w := captured_all (truncations num_b (q_num_f cct)) (levels vj cct i) in
  w * a * (q_vb cct j - q_vb cct i) <= nth j row 0 - nth i row 0 <= w * b * (q_vb cct j - q_vb cct i).
Proof.
  intros A P1 AL Hi Hj S M L E w. assert (W : w = weights (tones besselJ vj cct num_b i)) by (unfold w; symmetry; now apply tones_weights).
  assert (W' : w = weights (tones besselJ vj cct num_b j)).
  { unfold w. rewrite tones_weights by assumption. f_equal. unfold levels. apply map_ext_in. intros f Hf. apply in_seq in Hf. rewrite (S f 1%nat) by lia. reflexivity. }
  assert (S' : same_drive vj cct j i) by (intros f p Hf Hp; symmetry; now apply S).
  pose proof (dc_compare besselJ vj cct resp resp num_b row row i j (a * (q_vb cct j - q_vb cct i)) A AL Hi Hj S ltac:(intros s _; destruct (M (q_vb cct i + s) (q_vb cct j + s) ltac:(lra)) as [Q _]; replace (q_vb cct j + s - (q_vb cct i + s)) with (q_vb cct j - q_vb cct i) in Q by ring; lra) E E) as G1.
  pose proof (dc_compare besselJ vj cct resp resp num_b row row j i (- (b * (q_vb cct j - q_vb cct i))) A AL Hj Hi S' ltac:(intros s _; destruct (M (q_vb cct i + s) (q_vb cct j + s) ltac:(lra)) as [_ Q]; replace (q_vb cct j + s - (q_vb cct i + s)) with (q_vb cct j - q_vb cct i) in Q by ring; lra) E E) as G2.
  rewrite <- W in G1. rewrite <- W' in G2. split; lra.
Qed.
Lemma reach_bound bs fs ks : in_box bs ks -> Rabs (dot ks fs) <= reach bs fs.
Proof.
  intros B. revert fs. induction B as [|b k bs ks Hb B IH]; intros fs; [unfold dot, reach; cbn; rewrite Rabs_R0; lra|]. destruct fs as [|f fs]; [unfold reach; cbn; rewrite Rabs_R0; lra|].
  specialize (IH fs). unfold reach in *. cbn [dot List.combine map fold_right fst snd] in *. eapply Rle_trans; [apply Rabs_triang|]. apply Rplus_le_compat; [|exact IH]. rewrite Rabs_mult. apply Rmult_le_compat_r; [apply Rabs_pos|].
  rewrite <- abs_IZR. rewrite INR_IZR_INZ. apply IZR_le. lia.
Qed.
Lemma dc_gap J vj cct resp num_b row i g : args_ok cct num_b -> alone cct 0 (repeat 0%Z (q_num_f cct)) -> (i < q_npts cct)%nat ->
  (forall v, Rabs v < g -> Im (resp v) = 0) -> Rabs (q_vb cct i) + reach (truncations num_b (q_num_f cct)) (freqs cct) < g ->
  qtcurrent J vj cct resp (FScalar 0) num_b None = Ok (QReal row) -> nth i row 0 = 0.
Proof.
  intros A AL Hi Z L E. 
  assert (V : forall v, shifted (q_vb cct i) (truncations num_b (q_num_f cct)) (freqs cct) v -> Im (resp v) = 0).
  { intros v [ks [K ->]]. apply Z. eapply Rle_lt_trans; [apply Rabs_triang|]. pose proof (reach_bound _ (freqs cct) _ K). lra. }
  assert (Q : exists row0, qtcurrent J vj cct (fun _ => RtoC 0) (FScalar 0) num_b None = Ok (QReal row0)). { rewrite qtcurrent_spec by auto. unfold Reqb. rewrite round4_0. destruct (Req_EM_T 0 0) as [_|N]; [|now contradiction N]. eexists. reflexivity. }
  destruct Q as [row0 E0].
  assert (Z0 : nth i row0 0 = 0). { rewrite (dc_sum J vj cct _ num_b row0 A AL E0 i Hi). pose proof (rs_dc (tones J vj cct num_b i) (fun _ => RtoC 0) 0 ltac:(intros; cbn; rewrite Rabs_R0; lra)) as B. rewrite Rmult_0_r in B. pose proof (Rabs_pos (Im (rs_sum (tones J vj cct num_b i) (repeat 0%Z (length (tones J vj cct num_b i))) (fun _ => RtoC 0)))). destruct (Req_dec (Im (rs_sum (tones J vj cct num_b i) (repeat 0%Z (length (tones J vj cct num_b i))) (fun _ => RtoC 0))) 0) as [Q|Q]; [exact Q|]. apply Rabs_pos_lt in Q. lra. }
  pose proof (dc_order J vj cct resp (fun _ => RtoC 0) num_b row row0 i A AL Hi ltac:(intros v Hv; rewrite V by assumption; cbn; lra) E E0).
  pose proof (dc_order J vj cct (fun _ => RtoC 0) resp num_b row0 row i A AL Hi ltac:(intros v Hv; rewrite V by assumption; cbn; lra) E0 E). lra.
Qed.
