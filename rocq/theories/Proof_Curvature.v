(** The nodes of the interpolations follow the curvature of the table. *)
From Coq Require Import List ZArith Lia Lra Bool Arith Reals.
From Coquelicot Require Import Complex.
From Verif Require Import Base Model_QtCurrent Float NumPy Proof_NumPy Model_MathFn Spec_MathFn Proof_Circuit Proof_IVModels
  Proof_Slope Proof_Filters Proof_KK Spec_RespFn Spec_Curvature Model_CleanData Model_IVModels Model_RespFn Proof_HB2 Proof_Nodes Proof_RespFn Proof_RespFn2 Proof_RespFn3 Proof_RespFn4.
Import ListNotations.
Open Scope R_scope.
Local Notation length := List.length.

Section Loop.
Variables (v cs : list R) (mx : Z).
Let N := length v.
Hypothesis HC : length cs = N.
Hypothesis HN : (1 <= N)%nat.
Let T := nth (N - 1) cs 0.
Hypothesis HT : 0 < T.
Definition cinv (k : nat) (st : list Z * R * R) : Prop :=
  let '(L, c, _) := st in L <> [] /\
  (k <> 0%nat -> exists l, In (Z.of_nat l) L /\ c = nth l cs 0 /\ (l < k)%nat) /\
  (forall i, (i < k)%nat -> In (Z.of_nat i) L \/ exists l, (l < i)%nat /\ In (Z.of_nat l) L /\ (nth i cs 0 - nth l cs 0) * IZR mx <= T).
Lemma cinv_step k st : (k < N)%nat -> cinv k st -> exists st', visit v cs mx (Z.of_nat k, nth k v 0) st = Ok st' /\ cinv (k + 1) st'.
Proof.
  intros Hk. destruct st as [[L c] vl]. intros [NE [I2 I5]]. unfold visit.
  rewrite (pyget_nth cs (Z.of_nat k) 0) by lia. destruct (Z.ltb_spec (Z.of_nat k) 0); [lia|]. rewrite Nat2Z.id. cbn [bind]. rewrite (pyget_nth cs (-1) 0) by lia. change (-1 <? 0)%Z with true. cbv iota. cbn [bind].
  replace (Z.to_nat (-1 + Z.of_nat (length cs))) with (N - 1)%nat by lia. fold T.
  set (c3 := flt _ _). set (c1 := (Rltb (Rabs _) _ || _ || _)%bool). set (c4 := ((Z.of_nat k <? 3)%Z || _)%bool).
  destruct (c1 || Rleb 1 (nth k v 0 - vl) || c3 || c4)%bool eqn:E.
  - rewrite (pyget_last L 0%Z NE). cbn [bind].
    set (L' := if (Z.of_nat k =? last L 0)%Z then L else L ++ [Z.of_nat k]).
    assert (A : forall x, In x L' <-> In x L \/ x = Z.of_nat k).
    { intros x. unfold L'. destruct (Z.eqb_spec (Z.of_nat k) (last L 0%Z)) as [Q|Q].
      - split; [now left|]. intros [G| ->]; [assumption|]. rewrite Q. now apply last_in.
      - rewrite in_app_iff. simpl. intuition. }
    eexists. split; [reflexivity|]. unfold cinv. split; [|split].
    + intros Q. assert (G : In (Z.of_nat k) L') by (apply A; now right). rewrite Q in G. destruct G.
    + intros _. exists k. split; [apply A; now right|]. split; [reflexivity|lia].
    + intros i Hi. destruct (Nat.eq_dec i k) as [->|]; [left; apply A; now right|]. destruct (I5 i ltac:(lia)) as [G|[j [G1 [G2 G3]]]]; [left; apply A; now left|right]. exists j. split; [assumption|]. split; [apply A; now left|assumption].
  - apply orb_false_iff in E. destruct E as [E E4]. apply orb_false_iff in E. destruct E as [E E3].
    assert (K : k <> 0%nat) by (intros ->; unfold c4 in E4; discriminate). destruct (I2 K) as [l [L1 [L2 L3]]].
    exists (L, c, vl). split; [reflexivity|]. unfold cinv. split; [assumption|]. split; [intros _; exists l; repeat split; try assumption; lia|].
    intros i Hi. destruct (Nat.eq_dec i k) as [->|]; [|apply I5; lia]. right. exists l. split; [assumption|]. split; [assumption|]. rewrite <- L2.
    unfold c3 in E3. unfold fdiv in E3. destruct (Reqb_spec T 0); [lra|]. cbv beta iota delta [flt] in E3. destruct (Rltb_spec 1 ((nth k cs 0 - c) * IZR mx / T)) as [Q|Q]; [discriminate|].
    apply Rnot_lt_le in Q. apply (Rmult_le_compat_r T) in Q; [|lra]. unfold Rdiv in Q. rewrite Rmult_assoc, Rinv_l in Q by assumption. lra.
Qed.
Lemma cloop : exists st, foreach (List.combine (zrange 0 (Z.of_nat N)) v) (visit v cs mx) ([0%Z], 0, nth 0 v 0) = Ok st /\ cinv N st.
Proof.
  unfold N. rewrite (enum_eq v 0). fold N. apply (foreach_inv cinv).
  - unfold cinv. split; [discriminate|]. split; [now intros []|]. intros; lia.
  - intros k s Hk. now apply cinv_step.
Qed.
End Loop.
Lemma pick_curved v cs mx idx : length cs = length v -> (1 <= length v)%nat -> 0 < nth (length v - 1) cs 0 -> pick_nodes v cs mx = Ok idx ->
  forall i, (i < length v)%nat -> In (Z.of_nat i) idx \/ exists l, (l < i)%nat /\ In (Z.of_nat l) idx /\ (nth i cs 0 - nth l cs 0) * IZR mx <= nth (length v - 1) cs 0.
Proof.
  intros HC HN HT. unfold pick_nodes. cbv zeta.
  rewrite (pyget_nth v 0 0) by lia. change (0 <? 0)%Z with false. cbv iota. change (Z.to_nat 0) with 0%nat. cbn [bind].
  destruct (cloop v cs mx HC HN HT) as [[[L c] vl] [-> [_ [_ I]]]]. cbn [bind]. intros H.
  apply bind_ok in H. destruct H as [r1 [_ H]]. apply bind_ok in H. destruct H as [r2 [_ H]].
  apply bind_ok in H. destruct H as [lo [A1 H]]. apply bind_ok in H. destruct H as [hi [A2 H]]. apply bind_ok in H. destruct H as [r3 [E3 H]]. injection H as <-.
  assert (X : forall x, In x L -> In x (sorted_set (L ++ r1 ++ r2 ++ r3))) by (intros x Hx; rewrite sorted_set_in, in_app_iff; now left).
  intros i Hi. destruct (I i Hi) as [G|[j [G1 [G2 G3]]]]; [left; now apply X|right]. exists j. repeat split; try assumption. now apply X.
Qed.
Lemma cumsum_nth l k s : (k < length l)%nat -> nth k (cumsum_from s l) 0 = s + nsum (S k) (fun j => nth j l 0).
Proof.
  revert k s. induction l as [|a l IH]; intros k s H; cbn [List.length] in H; [lia|]. destruct k as [|k]; cbn [cumsum_from nth].
  - cbn [nsum]. cbn [nth]. ring.
  - rewrite IH by lia. clear. induction k as [|k IHk]; [cbn [nsum nth]; ring|]. cbn [nsum] in *. cbn [nth] in *. lra.
Qed.
Lemma nsum_le_mono f a b : (forall j, (j < b)%nat -> 0 <= f j) -> (a <= b)%nat -> nsum a f <= nsum b f.
Proof. intros H L. induction L; [lra|]. cbn [nsum]. specialize (IHL ltac:(intros; apply H; lia)). specialize (H m ltac:(lia)). lra. Qed.

Lemma reals_map l r : reals l = Ok r -> l = map FV r.
Proof.
  unfold reals. revert r. induction l as [|a l IH]; intros r H; [injection H as <-; reflexivity|]. cbn [mapM] in H. destruct a; cbn [bind] in H; try discriminate.
  apply bind_ok in H. destruct H as [t [E H]]. injection H as <-. cbn [map]. now rewrite (IH t E).
Qed.

Lemma nodes_curved v c mx s idx : increasing v -> length c = length v -> (201 <= length v)%nat -> (0 <= mx)%Z -> sample_curve v c mx s = Ok idx ->
  exists d1 d2 w, slope v c = Ok (map FV d1) /\ slope v d1 = Ok (map FV d2) /\ gauss_conv (map Rabs d2) (s / (nth 1 v 0 - nth 0 v 0)) 3 = Ok w /\
    let W k := nsum k (fun j => nth j w 0) in
    0 < W (length v) -> forall a b, neighbours idx a b -> (W (Z.to_nat b) - W (S (Z.to_nat a))) * IZR mx <= W (length v).
Proof.
  intros I HC HN HM H. pose proof H as H0. revert H0. unfold sample_curve. destruct (slope_finite v c I HC ltac:(lia)) as [d1 [E1 L1]]. rewrite E1. cbn [bind]. rewrite reals_ok. cbn [bind].
  destruct (slope_finite v d1 I L1 ltac:(lia)) as [d2 [E2 L2]]. rewrite E2. cbn [bind]. rewrite reals_ok. cbn [bind]. cbv zeta.
  rewrite !(pyget_nth v _ 0) by lia. change (1 <? 0)%Z with false. change (0 <? 0)%Z with false. cbv iota. change (Z.to_nat 1) with 1%nat. change (Z.to_nat 0) with 0%nat. cbn [bind].
  pose proof (I 0%nat 1%nat ltac:(lia) ltac:(lia)) as P. destruct (Reqb_spec (nth 1 v 0 - nth 0 v 0) 0); [lra|]. cbn [negb guard bind].
  destruct (gauss_conv (map Rabs d2) (s / (nth 1 v 0 - nth 0 v 0)) 3) as [w|] eqn:E; cbn [bind]; [|discriminate]. intros K. exists d1, d2, w. split; [reflexivity|]. split; [assumption|]. split; [exact E|].
  intros T a b NB. assert (LW : length w = length v) by (apply conv_length in E; rewrite map_length in E; lia).
  assert (NN : forall j, 0 <= nth j w 0).
  { intros j. destruct (le_lt_dec (length w) j); [rewrite nth_overflow by assumption; lra|].
    assert (B : exists hi, Forall (fun x => 0 <= x <= hi) (map Rabs d2)).
    { clear. induction d2 as [|x l [hi IH]]; [exists 0; constructor|]. exists (Rmax (Rabs x) hi). cbn [map]. constructor; [split; [apply Rabs_pos|apply Rmax_l]|].
      eapply Forall_impl; [|exact IH]. intros y [A B]. split; [assumption|]. eapply Rle_trans; [exact B|apply Rmax_r]. }
    destruct B as [hi B]. pose proof (conv_bounds _ _ _ _ 0 hi E B) as F. rewrite Forall_forall in F. apply (F (nth j w 0)). now apply nth_In. }
  set (W := fun k => nsum k (fun j => nth j w 0)) in *. cbv beta in *.
  assert (CS : forall k, (k < length v)%nat -> nth k (cumsum_from 0 w) 0 = W (S k)) by (intros k Hk; rewrite cumsum_nth by lia; unfold W; ring).
  assert (HT : nth (length v - 1) (cumsum_from 0 w) 0 = W (length v)) by (rewrite CS by lia; f_equal; lia).
  pose proof (pick_curved v (cumsum_from 0 w) mx idx ltac:(rewrite cumsum_length; assumption) ltac:(lia) ltac:(rewrite HT; assumption) K) as Gap. rewrite HT in Gap.
  destruct (nodes_valid v c mx s idx I HC HN H) as [_ [B _]]. destruct (pick_inv v _ mx idx K) as [A _].
  pose proof (asc_neighbours idx a b A NB) as [AB ON].
  assert (IA : In a idx /\ In b idx) by (destruct NB as [l1 [l2 ->]]; split; apply in_or_app; right; [now left|right; now left]). destruct IA as [IA IB]. pose proof (B a IA). pose proof (B b IB).
  assert (MZ : 0 <= IZR mx) by now apply IZR_le.
  destruct (Z.eq_dec (b - 1) a) as [Q|NE]; [replace (S (Z.to_nat a)) with (Z.to_nat b) by lia; replace (W (Z.to_nat b) - W (Z.to_nat b)) with 0 by ring; lra|].
  destruct (Gap (Z.to_nat (b - 1)) ltac:(lia)) as [Q|[l [G1 [G2 G3]]]]; [rewrite Z2Nat.id in Q by lia; apply ON in Q; lia|].
  apply ON in G2. rewrite !CS in G3 by lia. replace (S (Z.to_nat (b - 1))) with (Z.to_nat b) in G3 by lia.
  eapply Rle_trans; [|exact G3]. apply Rmult_le_compat_r; [assumption|]. assert (Q : W (S l) <= W (S (Z.to_nat a))) by (unfold W; apply nsum_le_mono; [intros; apply NN|lia]).
  unfold Rminus. apply Rplus_le_compat_l, Ropp_le_contravar. exact Q.
Qed.

Lemma slope_values x y : increasing x -> length y = length x -> (2 <= length x)%nat -> exists d, slope x y = Ok (map FV d) /\ length d = length x /\
  nth 0 d 0 = (nth 1 y 0 - nth 0 y 0) / (nth 1 x 0 - nth 0 x 0) /\
  nth (length x - 1) d 0 = (nth (length x - 1) y 0 - nth (length x - 2) y 0) / (nth (length x - 1) x 0 - nth (length x - 2) x 0) /\
  forall i, (S (S i) < length x)%nat -> nth (S i) d 0 = (nth (S (S i)) y 0 - nth i y 0) / (nth (S (S i)) x 0 - nth i x 0).
Proof.
  intros I HL HN. destruct (slope_finite x y I HL HN) as [d [E L]]. exists d. split; [assumption|]. split; [assumption|].
  destruct (slope_spec x y HL HN) as [d' [E' [L' [D0 [D1 DI]]]]]. rewrite E in E'. injection E' as <-.
  assert (S : forall i j, (i < j)%nat -> (j < length x)%nat -> secant x y i j = FV ((nth j y 0 - nth i y 0) / (nth j x 0 - nth i x 0))).
  { intros i j A B. unfold secant. apply fdiv_finite. specialize (I i j A B). lra. }
  assert (M : forall k r, (k < length x)%nat -> nth k (map FV d) (FV 0) = FV r -> nth k d 0 = r) by (intros k r Hk Q; rewrite map_nth in Q; congruence).
  split; [apply M; [lia|]; rewrite <- S by lia; exact D0|]. split; [apply M; [lia|]; rewrite <- S by lia; exact D1|].
  intros i Hi. apply M; [lia|]. rewrite <- S by lia. specialize (DI (Datatypes.S i) ltac:(lia) ltac:(lia)). replace (Datatypes.S i - 1)%nat with i in DI by lia. replace (Datatypes.S i + 1)%nat with (Datatypes.S (Datatypes.S i)) in DI by lia. exact DI.
Qed.
(** On an even grid the parabola has a positive curvature everywhere. *)
Lemma parabola_curved v a h : 0 < h -> (5 <= length v)%nat -> (forall k, (k < length v)%nat -> nth k v 0 = a + INR k * h) ->
  exists d1 d2, slope v (map Rsqr v) = Ok (map FV d1) /\ slope v d1 = Ok (map FV d2) /\ length d2 = length v /\ Forall (fun x => 1 <= x <= 2) (map Rabs d2).
Proof.
  intros Hh HN V. set (n := length v) in *.
  assert (I : increasing v). { intros i j L J. fold n in J. rewrite !V by lia. apply lt_INR in L. nra. }
  assert (Y : forall k, (k < n)%nat -> nth k (map Rsqr v) 0 = (a + INR k * h) ^ 2).
  { intros k Hk. rewrite (nth_indep _ 0 (Rsqr 0)) by (rewrite map_length; exact Hk). rewrite map_nth, V by assumption. unfold Rsqr. ring. }
  destruct (slope_values v (map Rsqr v) I (map_length _ _) ltac:(lia)) as [d1 [E1 [L1 [A0 [A1 AI]]]]].
  destruct (slope_values v d1 I L1 ltac:(lia)) as [d2 [E2 [L2 [B0 [B1 BI]]]]]. fold n in L1, L2, A1, AI, B1, BI.
  assert (NN : INR (n - 1) = INR n - 1 /\ INR (n - 2) = INR n - 2 /\ INR (n - 3) = INR n - 3 /\ INR (n - 4) = INR n - 4) by (rewrite !minus_INR by lia; cbn [INR]; repeat split; lra). destruct NN as [N1 [N2 [N3 N4]]].
  assert (F0 : nth 0 d1 0 = 2 * a + h). { rewrite A0, !Y, !V by lia. cbn [INR]. field. lra. }
  assert (F1 : nth (n - 1) d1 0 = 2 * (a + INR (n - 1) * h) - h). { rewrite A1, !Y, !V, N1, N2 by lia. field. lra. }
  assert (FI : forall i, (S (S i) < n)%nat -> nth (S i) d1 0 = 2 * (a + INR (S i) * h)). { intros i Hi. rewrite AI, !Y, !V, !S_INR by lia. field. lra. }
  exists d1, d2. split; [assumption|]. split; [assumption|]. split; [assumption|]. rewrite Forall_forall. intros x Hx. apply in_map_iff in Hx. destruct Hx as [y [<- Hy]].
  apply (In_nth _ _ 0) in Hy. destruct Hy as [k [Hk <-]]. rewrite L2 in Hk.
  assert (G : nth k d2 0 = 1 \/ nth k d2 0 = 3 / 2 \/ nth k d2 0 = 2).
  { destruct k as [|k]; [left; rewrite B0, F0, (FI 0%nat), !V by lia; cbn [INR]; field; lra|]. destruct (Nat.eq_dec (S k) (n - 1)) as [Q|Q].
    - left. rewrite Q, B1, F1, !V by lia. replace (n - 2)%nat with (S (n - 3)) by lia. rewrite FI by lia. rewrite !S_INR, N1, N3. field. lra.
    - right. rewrite BI, !V by lia. destruct k as [|k].
      + left. rewrite F0, (FI 1%nat) by lia. cbn [INR]. field. lra.
      + destruct (Nat.eq_dec (S (S (S k))) (n - 1)) as [Q'|Q'].
        * left. rewrite Q', F1, FI by lia. replace (S k) with (n - 3)%nat by lia. rewrite N1, N3. field. lra.
        * right. rewrite !FI, !S_INR by lia. field. lra. }
  destruct G as [->|[->| ->]]; rewrite Rabs_right; lra.
Qed.

Lemma map_inj {A B} (f : A -> B) l l' : (forall a b, f a = f b -> a = b) -> map f l = map f l' -> l = l'.
Proof. intros F. revert l'. induction l as [|a l IH]; intros [|b l']; cbn [map]; try discriminate; [reflexivity|]. intros H. f_equal; [apply F; congruence|apply IH; congruence]. Qed.
Lemma curvature_case : exists idx d1 d2 w, sample_curve (reflect VINIT) (map Rsqr (reflect VINIT)) 101 (1 / 4) = Ok idx /\ slope (reflect VINIT) (map Rsqr (reflect VINIT)) = Ok (map FV d1) /\ slope (reflect VINIT) d1 = Ok (map FV d2) /\
  gauss_conv (map Rabs d2) ((1 / 4) / (nth 1 (reflect VINIT) 0 - nth 0 (reflect VINIT) 0)) 3 = Ok w /\ 0 < nsum (length (reflect VINIT)) (fun j => nth j w 0).
Proof.
  destruct vinit_reflected as [LR VR]. pose proof npts_Z as NZ. set (v := reflect VINIT) in *.
  assert (I : increasing v). { intros i j L J. rewrite !VR by lia. apply lt_INR in L. lra. }
  destruct (sample_accepts (fun _ _ _ _ => 0) (fun _ _ _ _ => 0) VINIT (map Rsqr v) 101 (1 / 4) vinit_grid (map_length _ _) ltac:(lra)) as [idx [H _]]. fold v in H.
  destruct (nodes_curved v (map Rsqr v) 101 (1 / 4) idx I (map_length _ _) ltac:(rewrite LR; lia) ltac:(lia) H) as [d1 [d2 [w [E1 [E2 [E3 _]]]]]].
  exists idx, d1, d2, w. split; [assumption|]. split; [assumption|]. split; [assumption|]. split; [assumption|].
  destruct (parabola_curved v (-35) (1 / 200) ltac:(lra) ltac:(rewrite LR; lia) ltac:(intros k Hk; rewrite VR by assumption; field)) as [e1 [e2 [F1 [F2 [L F]]]]].
  assert (e1 = d1) by (rewrite F1 in E1; injection E1 as E1; exact (map_inj FV e1 d1 ltac:(congruence) E1)). subst e1.
  assert (e2 = d2) by (rewrite F2 in E2; injection E2 as E2; exact (map_inj FV e2 d2 ltac:(congruence) E2)). subst e2.
  pose proof (conv_bounds _ _ _ _ 1 2 E3 F) as B. apply conv_length in E3. rewrite map_length, L in E3. rewrite <- E3. rewrite Forall_forall in B.
  assert (N1 : (1 <= length w)%nat) by (rewrite E3, LR; lia). clear - B N1.
  assert (G : forall k, (k <= length w)%nat -> INR k <= nsum k (fun j => nth j w 0)). { induction k as [|k IH]; intros Hk; [cbn; lra|]. cbn [nsum]. rewrite S_INR. specialize (IH ltac:(lia)). pose proof (B (nth k w 0) (nth_In w 0 Hk)). lra. }
  specialize (G _ (le_n _)). apply le_INR in N1. change (INR 1) with 1 in N1. lra.
Qed.

(** ** In the words of the specification *)
Lemma first_sum_nsum w k : (k <= length w)%nat -> first_sum w k = nsum k (fun j => nth j w 0).
Proof.
  unfold first_sum. revert w. induction k as [|k IH]; intros w H; [reflexivity|]. assert (E : firstn (S k) w = firstn k w ++ [nth k w 0]).
  { clear IH. revert w H. induction k as [|k IH]; intros [|a w] H; cbn [List.length] in H; try lia; [reflexivity|]. cbn [firstn nth app]. f_equal. apply IH. lia. }
  rewrite E, fold_right_app. cbn [fold_right nsum]. rewrite <- IH by lia. clear. induction (firstn k w) as [|a l IH]; cbn [fold_right]; lra.
Qed.
Lemma nodes_follow v c mx s idx : increasing v -> length c = length v -> (201 <= length v)%nat -> (0 <= mx)%Z -> sample_curve v c mx s = Ok idx ->
  exists d1 d2 w, slope v c = Ok (map FV d1) /\ slope v d1 = Ok (map FV d2) /\ gauss_conv (map Rabs d2) (s / (nth 1 v 0 - nth 0 v 0)) 3 = Ok w /\
    (0 < first_sum w (length v) -> forall a b, neighbours idx a b -> (first_sum w (Z.to_nat b) - first_sum w (Z.to_nat a + 1)) * IZR mx <= first_sum w (length v)).
Proof.
  intros I HC HN HM H. destruct (nodes_curved v c mx s idx I HC HN HM H) as [d1 [d2 [w [E1 [E2 [E3 G]]]]]]. exists d1, d2, w. split; [assumption|]. split; [assumption|]. split; [assumption|].
  destruct (slope_finite v c I HC ltac:(lia)) as [e1 [F1 L1]]. assert (e1 = d1) by (rewrite F1 in E1; injection E1 as E1; exact (map_inj FV e1 d1 ltac:(congruence) E1)). subst e1.
  destruct (slope_finite v d1 I L1 ltac:(lia)) as [e2 [F2 L2]]. assert (e2 = d2) by (rewrite F2 in E2; injection E2 as E2; exact (map_inj FV e2 d2 ltac:(congruence) E2)). subst e2.
  assert (LW : length w = length v) by (apply conv_length in E3; rewrite map_length in E3; lia). cbv zeta in G.
  rewrite (first_sum_nsum w (length v)) by lia. intros T a b NB. destruct (nodes_valid v c mx s idx I HC HN H) as [_ [B _]].
  assert (IA : In a idx /\ In b idx) by (destruct NB as [l1 [l2 ->]]; split; apply in_or_app; right; [now left|right; now left]). destruct IA as [IA IB]. pose proof (B a IA). pose proof (B b IB).
  rewrite !first_sum_nsum by lia. rewrite Nat.add_1_r. now apply G.
Qed.
Lemma follow_case : exists idx d1 d2 w, sample_curve (reflect VINIT) (map Rsqr (reflect VINIT)) 101 (1 / 4) = Ok idx /\ slope (reflect VINIT) (map Rsqr (reflect VINIT)) = Ok (map FV d1) /\ slope (reflect VINIT) d1 = Ok (map FV d2) /\
  gauss_conv (map Rabs d2) ((1 / 4) / (nth 1 (reflect VINIT) 0 - nth 0 (reflect VINIT) 0)) 3 = Ok w /\ 0 < first_sum w (length (reflect VINIT)).
Proof.
  destruct curvature_case as [idx [d1 [d2 [w [H [E1 [E2 [E3 P]]]]]]]]. exists idx, d1, d2, w. repeat (split; [assumption|]). destruct (le_lt_dec (length (reflect VINIT)) (length w)) as [L|L]; [now rewrite first_sum_nsum|].
  exfalso. assert (N : length w = length d2) by (apply conv_length in E3; rewrite map_length in E3; exact E3).
  destruct vinit_reflected as [LR VR]. pose proof npts_Z as NZ. set (v := reflect VINIT) in *.
  assert (I : increasing v). { intros i j K J. rewrite !VR by lia. apply lt_INR in K. lra. }
  destruct (slope_finite v (map Rsqr v) I (map_length _ _) ltac:(rewrite LR; lia)) as [e1 [F1 L1]]. assert (e1 = d1) by (rewrite F1 in E1; injection E1 as E1; exact (map_inj FV e1 d1 ltac:(congruence) E1)). subst e1.
  destruct (slope_finite v d1 I L1 ltac:(rewrite LR; lia)) as [e2 [F2 L2]]. assert (e2 = d2) by (rewrite F2 in E2; injection E2 as E2; exact (map_inj FV e2 d2 ltac:(congruence) E2)). subst e2. lia.
Qed.
