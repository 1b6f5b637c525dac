(** Proofs about the construction of response functions. *)
From Coq Require Import List ZArith Lia Lra Bool Arith Reals String.
From Coquelicot Require Import Complex.
From Verif Require Import Base Model_QtCurrent Float NumPy Proof_NumPy Model_MathFn Spec_MathFn Proof_Circuit Proof_IVModels
  Proof_Slope Proof_Filters Proof_KK Spec_RespFn Model_CleanData Model_IVModels Model_RespFn Proof_HB2 Proof_Nodes.
Import ListNotations.
Open Scope R_scope.
Local Notation length := List.length.

(** ** Reflection *)
Lemma reflect_length a : (1 <= length a)%nat -> length (reflect a) = (2 * length a - 1)%nat.
Proof. intros H. unfold reflect. rewrite app_length, map_length, pyslice_length, rev_length, slice_neg by lia. lia. Qed.
Lemma left_length (a : list R) : length (map Ropp (pyslice (rev a) None (Some (-1)%Z))) = (length a - 1)%nat.
Proof. rewrite map_length, pyslice_length, rev_length, slice_neg by lia. lia. Qed.
Lemma reflect_right a j : (1 <= length a)%nat -> nth (length a - 1 + j) (reflect a) 0 = nth j a 0.
Proof.
  intros H. unfold reflect. rewrite app_nth2; rewrite left_length; [|lia]. f_equal. lia.
Qed.
Lemma reflect_high a k : (1 <= length a)%nat -> (length a - 1 <= k)%nat -> nth k (reflect a) 0 = nth (k - (length a - 1)) a 0.
Proof. intros H K. pose proof (reflect_right a (k - (length a - 1)) H) as E. rewrite <- E. f_equal. lia. Qed.
Lemma reflect_left a k : (k < length a - 1)%nat -> nth k (reflect a) 0 = - nth (length a - 1 - k) a 0.
Proof.
  intros H. unfold reflect. rewrite app_nth1 by (rewrite left_length; lia).
  rewrite (nth_indep _ 0 (- 0)) by (rewrite left_length; lia). rewrite map_nth. f_equal.
  rewrite nth_pyslice by (rewrite pyslice_length, rev_length, slice_neg by lia; lia). rewrite Nat.add_0_l, rev_nth by lia. f_equal. lia.
Qed.
Lemma reflect_mirror a k : (1 <= k)%nat -> (k < length a)%nat -> nth (length a - 1 - k) (reflect a) 0 = - nth (length a - 1 + k) (reflect a) 0.
Proof. intros H1 H2. rewrite reflect_left by lia. rewrite reflect_right by lia. do 2 f_equal. lia. Qed.
Lemma reflect_odd a : (1 <= length a)%nat -> (odd_list (reflect a) <-> nth 0 a 0 = 0).
Proof.
  intros H. unfold odd_list. rewrite reflect_length by assumption. split.
  - intros O. specialize (O (length a - 1)%nat ltac:(lia)). replace (2 * length a - 1 - 1 - (length a - 1))%nat with (length a - 1 + 0)%nat in O by lia.
    rewrite reflect_right in O by assumption. rewrite reflect_high, Nat.sub_diag in O by lia. lra.
  - intros Z k Hk. destruct (Nat.lt_trichotomy k (length a - 1)) as [L|[L|L]].
    + replace (2 * length a - 1 - 1 - k)%nat with (length a - 1 + (length a - 1 - k))%nat by lia. rewrite reflect_right by lia. rewrite reflect_left by lia. lra.
    + subst. replace (2 * length a - 1 - 1 - (length a - 1))%nat with (length a - 1)%nat by lia. replace (length a - 1)%nat with (length a - 1 + 0)%nat by lia. rewrite reflect_right, Z by lia. lra.
    + rewrite (reflect_high a k) by lia. rewrite reflect_left by lia. do 2 f_equal. lia.
Qed.
(** The steps of the reflected grid are steps of the grid. *)
Lemma reflect_step v k : (1 <= length v)%nat -> nth 0 v 0 = 0 -> (S k < 2 * length v - 1)%nat ->
  exists j, (S j < length v)%nat /\ nth (S k) (reflect v) 0 - nth k (reflect v) 0 = nth (S j) v 0 - nth j v 0.
Proof.
  intros H Z Hk. destruct (Nat.lt_trichotomy (S k) (length v - 1)) as [L|[L|L]].
  - exists (length v - 2 - k)%nat. split; [lia|]. rewrite !reflect_left by lia. replace (S (length v - 2 - k)) with (length v - 1 - k)%nat by lia.
    replace (length v - 1 - S k)%nat with (length v - 2 - k)%nat by lia. lra.
  - exists 0%nat. split; [lia|]. rewrite (reflect_left v k) by lia. rewrite reflect_high by lia.
    replace (S k - (length v - 1))%nat with 0%nat by lia. rewrite Z. replace (length v - 1 - k)%nat with 1%nat by lia. lra.
  - exists (S k - length v)%nat. split; [lia|]. rewrite !reflect_high by lia. replace (S k - (length v - 1))%nat with (S (S k - length v)) by lia. replace (k - (length v - 1))%nat with (S k - length v)%nat by lia. reflexivity.
Qed.
Lemma reflect_first v : (2 <= length v)%nat -> nth 0 v 0 = 0 ->
  nth 1 (reflect v) 0 - nth 0 (reflect v) 0 = nth (length v - 1) v 0 - nth (length v - 2) v 0.
Proof.
  intros H Z. rewrite (reflect_left v 0) by lia. rewrite Nat.sub_0_r. destruct (Nat.eq_dec (length v) 2) as [E|N].
  - rewrite reflect_high by lia. rewrite E. simpl. rewrite Z. lra.
  - rewrite reflect_left by lia. replace (length v - 1 - 1)%nat with (length v - 2)%nat by lia. lra.
Qed.
(** Every step of the grid occurs. *)
Lemma reflect_has v j : (S j < length v)%nat -> nth (S (length v - 1 + j)) (reflect v) 0 - nth (length v - 1 + j) (reflect v) 0 = nth (S j) v 0 - nth j v 0.
Proof. intros H. rewrite <- Nat.add_succ_r, !reflect_right by lia. reflexivity. Qed.

(** ** Grids *)
Lemma steps_sum lo hi v : steps_between lo hi v -> forall d i, (i + d < length v)%nat -> INR d * lo <= nth (i + d) v 0 - nth i v 0 <= INR d * hi.
Proof.
  intros H d. induction d as [|d IH]; intros i Hi; [rewrite Nat.add_0_r; simpl; lra|]. specialize (IH i ltac:(lia)). specialize (H (i + d)%nat ltac:(lia)).
  rewrite Nat.add_succ_r, S_INR. lra.
Qed.
Lemma steps_diff lo hi v i j : steps_between lo hi v -> (i <= j)%nat -> (j < length v)%nat -> INR (j - i) * lo <= nth j v 0 - nth i v 0 <= INR (j - i) * hi.
Proof. intros H A B. pose proof (steps_sum lo hi v H (j - i) i ltac:(lia)) as S. now replace (i + (j - i))%nat with j in S by lia. Qed.
Lemma steps_increasing lo hi v : 0 < lo -> steps_between lo hi v -> increasing v.
Proof.
  intros P H i j A B. pose proof (steps_diff lo hi v i j H ltac:(lia) B) as [S _]. assert (0 < INR (j - i)) by (apply lt_0_INR; lia). pose proof (Rmult_lt_0_compat _ _ H0 P). lra.
Qed.
Lemma reflect_between lo hi v : (1 <= length v)%nat -> nth 0 v 0 = 0 -> steps_between lo hi v -> steps_between lo hi (reflect v).
Proof. intros H Z S k Hk. rewrite reflect_length in Hk by assumption. destruct (reflect_step v k H Z Hk) as [j [Hj ->]]. now apply S. Qed.
Lemma reflect_increasing v : (1 <= length v)%nat -> nth 0 v 0 = 0 -> increasing v -> increasing (reflect v).
Proof.
  intros H Z I i j A B. rewrite reflect_length in B by assumption. assert (P : forall k, (0 < k)%nat -> (k < length v)%nat -> 0 < nth k v 0) by (intros k K1 K2; pose proof (I 0%nat k K1 K2); lra).
  destruct (le_lt_dec (length v - 1) i) as [L|L].
  - replace i with (length v - 1 + (i - (length v - 1)))%nat by lia. replace j with (length v - 1 + (j - (length v - 1)))%nat by lia. rewrite !reflect_right by assumption. apply I; lia.
  - rewrite reflect_left by lia. pose proof (P (length v - 1 - i)%nat ltac:(lia) ltac:(lia)). destruct (le_lt_dec (length v - 1) j) as [L'|L'].
    + replace j with (length v - 1 + (j - (length v - 1)))%nat by lia. rewrite reflect_right by assumption. destruct (Nat.eq_dec (j - (length v - 1)) 0) as [->|N]; [rewrite Z; lra|].
      pose proof (P (j - (length v - 1))%nat ltac:(lia) ltac:(lia)). lra.
    + rewrite reflect_left by lia. apply Ropp_lt_contravar. apply I; lia.
Qed.
Lemma reflect_even v : (2 <= length v)%nat -> nth 0 v 0 = 0 ->
  (even_grid (reflect v) <-> forall k, (S k < length v)%nat -> Rabs ((nth (length v - 1) v 0 - nth (length v - 2) v 0) - (nth (S k) v 0 - nth k v 0)) < / 10 ^ 5).
Proof.
  intros H Z. unfold even_grid. rewrite reflect_first by assumption. rewrite reflect_length by lia. split.
  - intros E k Hk. rewrite <- reflect_has by assumption. apply E. lia.
  - intros E k Hk. destruct (reflect_step v k ltac:(lia) Z Hk) as [j [Hj ->]]. now apply E.
Qed.

(** A grid point near any value in its range. *)
Lemma crossing v x : forall n, (n < length v)%nat -> nth 0 v 0 <= x -> x < nth n v 0 -> exists j, (j < n)%nat /\ nth j v 0 <= x < nth (S j) v 0.
Proof.
  induction n as [|n IH]; intros Hn A B; [lra|]. destruct (Rlt_dec x (nth n v 0)) as [L|L].
  - destruct (IH ltac:(lia) A L) as [j [J K]]. exists j. split; [lia|assumption].
  - exists n. split; [lia|lra].
Qed.
Lemma half_step lo hi v x : steps_between lo hi v -> (1 <= length v)%nat -> nth 0 v 0 <= x -> x < nth (length v - 1) v 0 -> exists j, (j < length v)%nat /\ Rabs (nth j v 0 - x) <= hi / 2.
Proof.
  intros S H A B. destruct (crossing v x (length v - 1) ltac:(lia) A B) as [j [J K]]. specialize (S j ltac:(lia)).
  destruct (Rle_dec (x - nth j v 0) (hi / 2)).
  - exists j. split; [lia|]. rewrite Rabs_minus_sym. rewrite Rabs_right; lra.
  - exists (Datatypes.S j). split; [lia|]. rewrite Rabs_right; lra.
Qed.

(** ** Sampling *)
Lemma fdiv_finite a b : b <> 0 -> fdiv (FV a) (FV b) = FV (a / b).
Proof. intros H. simpl. destruct (Reqb_spec b 0); [contradiction|reflexivity]. Qed.
Lemma slope_finite x y : increasing x -> length y = length x -> (2 <= length x)%nat -> exists d, slope x y = Ok (map FV d) /\ length d = length x.
Proof.
  intros I H HN. destruct (slope_spec x y H HN) as [d [E [L [D0 [D1 DI]]]]]. rewrite E.
  assert (S : forall i j, (i < j)%nat -> (j < length x)%nat -> secant x y i j = FV ((nth j y 0 - nth i y 0) / (nth j x 0 - nth i x 0))).
  { intros i j A B. unfold secant. apply fdiv_finite. specialize (I i j A B). lra. }
  assert (F : forall k, (k < length x)%nat -> exists r, nth k d (FV 0) = FV r).
  { intros k Hk. destruct (Nat.eq_dec k 0) as [->|]; [rewrite D0, S by lia; eauto|]. destruct (Nat.eq_dec k (length x - 1)) as [->|]; [rewrite D1, S by lia; eauto|].
    rewrite DI, S by lia. eauto. }
  rewrite <- L in F. clear - F L. assert (G : exists d', d = map FV d').
  { clear L. induction d as [|a d IH]; [now exists []|]. destruct (F 0%nat ltac:(simpl; lia)) as [r R]. simpl in R. subst.
    destruct IH as [d' ->]; [intros k Hk; exact (F (S k) ltac:(simpl; lia))|]. now exists (r :: d'). }
  destruct G as [d' ->]. exists d'. split; [reflexivity|]. now rewrite map_length in L.
Qed.
Lemma reals_ok d : reals (map FV d) = Ok d.
Proof. unfold reals. induction d as [|a d IH]; [reflexivity|]. cbn [map mapM bind]. rewrite IH. reflexivity. Qed.
Lemma cumsum_length l : forall s, length (cumsum_from s l) = length l.
Proof. induction l; intros; simpl; auto. Qed.

Lemma sample_reduces v c mx s : increasing v -> length c = length v -> (2 <= length v)%nat ->
  (exists m, 1 <= s / (nth 1 v 0 - nth 0 v 0) * 3 /\ window_points (s / (nth 1 v 0 - nth 0 v 0) * 3) m /\ (m <= length v)%nat) ->
  exists cs, length cs = length v /\ sample_curve v c mx s = pick_nodes v cs mx.
Proof.
  intros I HC HN HW. unfold sample_curve. destruct (slope_finite v c I HC HN) as [d1 [-> L1]]. cbn [bind]. rewrite reals_ok. cbn [bind].
  destruct (slope_finite v d1 I L1 HN) as [d2 [-> L2]]. cbn [bind]. rewrite reals_ok. cbn [bind]. cbv zeta.
  rewrite !(pyget_nth v _ 0) by lia. change (1 <? 0)%Z with false. change (0 <? 0)%Z with false. cbv iota. change (Z.to_nat 1) with 1%nat. change (Z.to_nat 0) with 0%nat. cbn [bind].
  pose proof (I 0%nat 1%nat ltac:(lia) ltac:(lia)) as P. destruct (Reqb_spec (nth 1 v 0 - nth 0 v 0) 0); [lra|]. cbn [negb guard bind].
  assert (E : exists y, gauss_conv (map Rabs d2) (s / (nth 1 v 0 - nth 0 v 0)) 3 = Ok y) by (apply conv_ok; rewrite map_length, L2; assumption).
  destruct E as [y E]. rewrite E. cbn [bind]. exists (cumsum_from 0 y). split; [|reflexivity]. rewrite cumsum_length. apply conv_length in E. rewrite map_length in E. lia.
Qed.
Lemma sample_inv v c mx s idx : increasing v -> length c = length v -> (2 <= length v)%nat -> sample_curve v c mx s = Ok idx ->
  exists cs, length cs = length v /\ pick_nodes v cs mx = Ok idx.
Proof.
  intros I HC HN. unfold sample_curve. destruct (slope_finite v c I HC HN) as [d1 [-> L1]]. cbn [bind]. rewrite reals_ok. cbn [bind].
  destruct (slope_finite v d1 I L1 HN) as [d2 [-> L2]]. cbn [bind]. rewrite reals_ok. cbn [bind]. cbv zeta.
  rewrite !(pyget_nth v _ 0) by lia. change (1 <? 0)%Z with false. change (0 <? 0)%Z with false. cbv iota. change (Z.to_nat 1) with 1%nat. change (Z.to_nat 0) with 0%nat. cbn [bind].
  pose proof (I 0%nat 1%nat ltac:(lia) ltac:(lia)) as P. destruct (Reqb_spec (nth 1 v 0 - nth 0 v 0) 0); [lra|]. cbn [negb guard bind].
  destruct (gauss_conv _ _ 3) as [y|] eqn:E; cbn [bind]; [|discriminate]. intros H. exists (cumsum_from 0 y). split; [|assumption]. rewrite cumsum_length. apply conv_length in E. rewrite map_length in E. lia.
Qed.

(** What a result of the node selection tells. *)
Lemma pick_inv v cs mx idx : pick_nodes v cs mx = Ok idx -> asc idx /\ In 0%Z idx /\ In (Z.of_nat (length v) - 201)%Z idx /\
  exists lo hi, argmin (map (fun v => Rabs (v + 1)) v) = Ok lo /\ argmin (map (fun v => Rabs (v - 1)) v) = Ok hi /\ ((hi - lo) / 30 <> 0)%Z.
Proof.
  unfold pick_nodes. cbv zeta. intros H. apply bind_ok in H. destruct H as [v0 [_ H]]. apply bind_ok in H. destruct H as [[[L ?] ?] [_ H]].
  destruct (range3_ok 0 200 20 ltac:(lia)) as [r1 [E1 R1]]. rewrite E1 in H. cbn [bind] in H.
  destruct (range3_ok (Z.of_nat (length v) - 200 - 1) (Z.of_nat (length v)) 20 ltac:(lia)) as [r2 [E2 R2]]. rewrite E2 in H. cbn [bind] in H.
  apply bind_ok in H. destruct H as [lo [A1 H]]. apply bind_ok in H. destruct H as [hi [A2 H]]. apply bind_ok in H. destruct H as [r3 [E3 H]]. injection H as <-.
  split; [apply sorted_set_asc|]. split; [apply sorted_set_in; rewrite !in_app_iff; right; left; apply R1; split; [lia|reflexivity]|].
  split; [apply sorted_set_in; rewrite !in_app_iff; right; right; left; apply R2; split; [lia|]; now replace (Z.of_nat (length v) - 201 - (Z.of_nat (length v) - 200 - 1))%Z with 0%Z by ring|].
  exists lo, hi. repeat split; try assumption. intros K. rewrite K in E3. discriminate.
Qed.
Lemma low_le_high v lo hi : increasing v -> (lo < length v)%nat -> (hi < length v)%nat -> (forall j, (j < length v)%nat -> Rabs (nth lo v 0 + 1) <= Rabs (nth j v 0 + 1)) ->
  (forall j, (j < length v)%nat -> Rabs (nth hi v 0 - 1) <= Rabs (nth j v 0 - 1)) -> (lo <= hi)%nat.
Proof.
  intros I A B M1 M2. destruct (le_lt_dec lo hi) as [L|L]; [assumption|]. exfalso. specialize (I hi lo L A). specialize (M1 hi B). specialize (M2 lo A).
  unfold Rabs in *. destruct (Rcase_abs (nth lo v 0 + 1)), (Rcase_abs (nth hi v 0 + 1)), (Rcase_abs (nth hi v 0 - 1)), (Rcase_abs (nth lo v 0 - 1)); lra.
Qed.

(** C44 *)
Lemma nodes_valid v c mx s idx : increasing v -> length c = length v -> (201 <= length v)%nat -> sample_curve v c mx s = Ok idx ->
  ascending idx /\
  (forall x, In x idx -> (0 <= x < Z.of_nat (length v))%Z) /\
  In 0%Z idx /\ In (Z.of_nat (length v) - 1)%Z idx /\
  (forall k, (k < length v)%nat -> Rabs (nth k v 0) < 1 / 20 \/ Rabs (nth k v 0 - 1) < 1 / 10 \/ Rabs (nth k v 0 + 1) < 1 / 10 -> In (Z.of_nat k) idx) /\
  (forall a b, neighbours idx a b -> nth (Z.to_nat (b - 1)) v 0 - nth (Z.to_nat a) v 0 < 1).
Proof.
  intros I HC HN H. destruct (sample_inv v c mx s idx I HC ltac:(lia) H) as [cs [LC P]]. destruct (pick_inv v cs mx idx P) as [A [_ [_ [lo' [hi' [E1 [E2 NZ]]]]]]].
  destruct (low_high_exists v ltac:(lia)) as [lo [hi [LH [M1 M2]]]]. pose proof LH as [F1 [F2 [K1 K2]]]. rewrite F1 in E1. rewrite F2 in E2. injection E1 as <-. injection E2 as <-.
  pose proof (low_le_high v lo hi I K1 K2 M1 M2) as LE.
  assert (G : (lo + 30 <= hi)%nat). { destruct (le_lt_dec (lo + 30) hi) as [|L]; [assumption|]. contradict NZ. apply Z.div_small. lia. }
  destruct (pick_ok v cs mx lo hi LC LH G) as [idx' [P' [_ [_ [B [_ [Nr Gap]]]]]]]. rewrite P in P'. injection P' as <-. specialize (B HN).
  split; [now apply asc_ascending|]. split; [assumption|]. split; [apply (Nr 0%nat ltac:(lia)); unfold near; right; right; right; left; lia|].
  split; [replace (Z.of_nat (length v) - 1)%Z with (Z.of_nat (length v - 1)) by lia; apply Nr; [lia|]; unfold near; right; right; right; right; lia|].
  split; [intros k Hk N; apply Nr; [assumption|]; unfold near; tauto|].
  intros a b N. pose proof (asc_neighbours idx a b A N) as [AB ON].
  assert (IA : In a idx /\ In b idx) by (destruct N as [l1 [l2 ->]]; split; apply in_or_app; right; [now left|right; now left]). destruct IA as [IA IB]. pose proof (B a IA). pose proof (B b IB).
  destruct (Z.eq_dec (b - 1) a) as [->|NE]; [lra|].
  destruct (Gap (Z.to_nat (b - 1)) ltac:(lia)) as [Q|[l [L1 [L2 L3]]]].
  - rewrite Z2Nat.id in Q by lia. apply ON in Q. lia.
  - apply ON in L2. assert (LL : (l <= Z.to_nat a)%nat) by lia. destruct (Nat.eq_dec l (Z.to_nat a)) as [->|N2]; [assumption|]. specialize (I l (Z.to_nat a) ltac:(lia) ltac:(lia)). lra.
Qed.

(** ** Interpolation *)
Lemma at_indices_ok l idx : (forall x, In x idx -> (0 <= x < Z.of_nat (length l))%Z) -> at_indices l idx = Ok (map (fun k => nth (Z.to_nat k) l 0) idx).
Proof.
  intros H. unfold at_indices. apply mapM_ok. intros x Hx. specialize (H x Hx). rewrite (pyget_nth l x 0) by lia. destruct (Z.ltb_spec x 0); [lia|reflexivity].
Qed.
Lemma nodes_increasing v idx : increasing v -> asc idx -> (forall x, In x idx -> (0 <= x < Z.of_nat (length v))%Z) -> strictly_increasing (map (fun k => nth (Z.to_nat k) v 0) idx) = true.
Proof.
  intros I A B. induction idx as [|a idx IH]; [reflexivity|]. destruct idx as [|b idx]; [reflexivity|]. destruct A as [A1 A2].
  specialize (IH A2 (fun x Hx => B x (or_intror Hx))). cbn [map strictly_increasing] in *. rewrite IH, andb_true_r. apply Rltb_t.
  pose proof (A1 b (or_introl eq_refl)). pose proof (B a (or_introl eq_refl)). pose proof (B b (or_intror (or_introl eq_refl))). apply I; lia.
Qed.
Lemma increasing_spec l : strictly_increasing l = true -> forall l1 a l2 b l3, l = l1 ++ a :: l2 ++ b :: l3 -> a < b.
Proof.
  assert (G : forall l a, strictly_increasing (a :: l) = true -> forall b, In b l -> a < b).
  { induction l0 as [|c l0 IH]; intros a H b Hb; [destruct Hb|]. cbn [strictly_increasing] in H. apply andb_true_iff in H. destruct H as [H1 H2]. destruct (Rltb_spec a c); [|discriminate].
    destruct Hb as [<-|Hb]; [assumption|]. specialize (IH c H2 b Hb). lra. }
  intros H l1. revert l H. induction l1 as [|x l1 IH]; intros l H a l2 b l3 ->.
  - apply (G _ _ H). apply in_or_app. right. now left.
  - apply (IH (l1 ++ a :: l2 ++ b :: l3)) with (l2 := l2) (l3 := l3); [|reflexivity]. cbn [app strictly_increasing] in H. destruct (l1 ++ a :: l2 ++ b :: l3); [reflexivity|]. now apply andb_true_iff in H.
Qed.

(** ** Acceptance *)
Section Accept.
Variables spline dspline : list R -> list R -> Z -> R -> R.
Lemma interp_ok x y k : strictly_increasing x = true -> length x = length y -> (1 <= k <= 5)%Z -> (6 <= length x)%nat -> interp spline dspline x y k = Ok (spline x y k, dspline x y k).
Proof.
  intros A B C D. unfold interp. rewrite A, B, Nat.eqb_refl. destruct (Z.leb_spec 1 k), (Z.leb_spec k 5); try lia. destruct (Z.ltb_spec k (Z.of_nat (length y))); [reflexivity|lia].
Qed.

(** A grid on which the sampling works. *)
Lemma window_fits s h N : 0 < h -> h / 3 <= s -> 6 * s / h + / 10 ^ 5 <= INR N -> exists m, 1 <= s / h * 3 /\ window_points (s / h * 3) m /\ (m <= N)%nat.
Proof.
  intros P A B. assert (S : 1 <= s / h * 3). { apply Rmult_le_reg_r with (h / 3); [lra|]. unfold Rdiv. field_simplify; lra. }
  destruct (points_exist _ S) as [m [W M]]. exists m. split; [assumption|]. split; [assumption|]. destruct W as [W1 W2].
  apply INR_le. destruct (le_lt_dec m N) as [L|L]; [now apply le_INR|]. exfalso. apply le_INR in L. rewrite S_INR in L. assert (s / h * 3 * 2 = 6 * s / h) by (field; lra). lra.
Qed.
Lemma long_list {A} (l : list A) : NoDup l -> forall m, NoDup m -> incl m l -> (length m <= length l)%nat.
Proof. intros _ m H I. now apply NoDup_incl_length. Qed.
Lemma asc_nodup l : asc l -> NoDup l.
Proof. induction l as [|a l IH]; intros H; [constructor|]. destruct H as [A B]. constructor; [|now apply IH]. intros K. specialize (A a K). lia. Qed.

Definition grid_ok (v : list R) : Prop :=
  (101 <= length v)%nat /\ nth 0 v 0 = 0 /\ 5 < nth (length v - 1) v 0 /\ steps_between (1 / 10000) (1 / 15) v /\
  forall k, (S k < length v)%nat -> Rabs ((nth (length v - 1) v 0 - nth (length v - 2) v 0) - (nth (S k) v 0 - nth k v 0)) < / 10 ^ 5.

Lemma grid_facts v : grid_ok v -> let h := nth (length v - 1) v 0 - nth (length v - 2) v 0 in 1 / 10000 <= h <= 1 / 15 /\ 9 / h <= 2 * INR (length v - 1).
Proof.
  intros [L [Z [F [S E]]]] h. assert (H : 1 / 10000 <= h <= 1 / 15). { unfold h. specialize (S (length v - 2)%nat ltac:(lia)). now replace (Datatypes.S (length v - 2)) with (length v - 1)%nat in S by lia. }
  split; [assumption|]. assert (T : / 10 ^ 5 <= h / 10). { apply Rle_trans with (1 / 100000); [|lra]. right. field. }
  assert (B : steps_between 0 (11 / 10 * h) v). { intros k Hk. specialize (E k Hk). fold h in E. specialize (S k Hk). apply Rabs_def2 in E. lra. }
  pose proof (steps_diff 0 _ v 0 (length v - 1) B ltac:(lia) ltac:(lia)) as [_ D]. rewrite Z, Nat.sub_0_r in D. apply Rmult_le_reg_r with h; [lra|]. unfold Rdiv. rewrite Rmult_assoc, Rinv_l by lra. lra.
Qed.
Lemma middle_wide v : grid_ok v -> exists lo hi, low_high (reflect v) lo hi /\ (lo + 30 <= hi)%nat.
Proof.
  intros [L [Z [F [S E]]]]. pose proof (reflect_length v ltac:(lia)) as LR. pose proof (reflect_between _ _ v ltac:(lia) Z S) as SR.
  destruct (low_high_exists (reflect v) ltac:(lia)) as [lo [hi [LH [M1 M2]]]]. pose proof LH as [_ [_ [K1 K2]]]. exists lo, hi. split; [assumption|].
  assert (C : nth (length v - 1) (reflect v) 0 = 0). { replace (length v - 1)%nat with (length v - 1 + 0)%nat by lia. rewrite reflect_right by lia. assumption. }
  assert (F0 : nth 0 (reflect v) 0 < -5) by (rewrite reflect_left by lia; rewrite Nat.sub_0_r; lra).
  assert (FN : 5 < nth (length (reflect v) - 1) (reflect v) 0). { replace (length (reflect v) - 1)%nat with (length v - 1 + (length v - 1))%nat by lia. rewrite reflect_right by lia. assumption. }
  pose proof (steps_increasing (1 / 10000) _ _ ltac:(lra) SR) as I.
  destruct (half_step _ _ (reflect v) 1 SR ltac:(lia) ltac:(lra) ltac:(lra)) as [j1 [J1 H1]]. destruct (half_step _ _ (reflect v) (-1) SR ltac:(lia) ltac:(lra) ltac:(lra)) as [j2 [J2 H2]].
  specialize (M2 j1 J1). specialize (M1 j2 J2). replace (nth j2 (reflect v) 0 - -1) with (nth j2 (reflect v) 0 + 1) in H2 by ring.
  assert (A1 : Rabs (nth hi (reflect v) 0 - 1) <= 1 / 30) by lra. assert (A2 : Rabs (nth lo (reflect v) 0 + 1) <= 1 / 30) by lra. pose proof (Rle_abs (nth hi (reflect v) 0 - 1)) as A1'. pose proof (Rle_abs (- (nth hi (reflect v) 0 - 1))) as A1''. rewrite Rabs_Ropp in A1''. pose proof (Rle_abs (nth lo (reflect v) 0 + 1)) as A2'.
  assert (U : (length v - 1 + 15 <= hi)%nat).
  { destruct (le_lt_dec hi (length v - 1)) as [Q|Q].
    - exfalso. destruct (Nat.eq_dec hi (length v - 1)) as [->|]; [lra|]. specialize (I hi (length v - 1)%nat ltac:(lia) ltac:(lia)). lra.
    - pose proof (steps_diff _ _ _ (length v - 1) hi SR ltac:(lia) K2) as [_ D]. rewrite C in D. destruct (le_lt_dec (length v - 1 + 15) hi) as [|X]; [assumption|]. exfalso.
      assert (Y : INR (hi - (length v - 1)) <= 14) by (replace 14 with (INR 14) by (simpl; lra); apply le_INR; lia). lra. }
  assert (D : (lo + 15 <= length v - 1)%nat).
  { destruct (le_lt_dec (length v - 1) lo) as [Q|Q].
    - exfalso. destruct (Nat.eq_dec lo (length v - 1)) as [->|]; [lra|]. specialize (I (length v - 1)%nat lo ltac:(lia) ltac:(lia)). lra.
    - pose proof (steps_diff _ _ _ lo (length v - 1) SR ltac:(lia) ltac:(lia)) as [_ D]. rewrite C in D. destruct (le_lt_dec (lo + 15) (length v - 1)) as [|X]; [assumption|]. exfalso.
      assert (Y : INR (length v - 1 - lo) <= 14) by (replace 14 with (INR 14) by (simpl; lra); apply le_INR; lia). lra. }
  lia.
Qed.
Lemma tiny : 0 < / 10 ^ 5 <= 1.
Proof. split; [apply Rinv_0_lt_compat, pow_lt; lra|]. rewrite <- Rinv_1. apply Rinv_le_contravar; [lra|]. rewrite <- (pow1 5). apply pow_incr. lra. Qed.
Lemma smear_fits v s : grid_ok v -> (nth (length v - 1) v 0 - nth (length v - 2) v 0) / 3 <= s <= 1 ->
  exists m, 1 <= s / (nth 1 (reflect v) 0 - nth 0 (reflect v) 0) * 3 /\ window_points (s / (nth 1 (reflect v) 0 - nth 0 (reflect v) 0) * 3) m /\ (m <= length (reflect v))%nat.
Proof.
  intros G Hs. pose proof (grid_facts v G) as [H B]. cbv zeta in *. destruct G as [L [Z _]]. rewrite reflect_first by (lia || assumption). set (h := nth (length v - 1) v 0 - nth (length v - 2) v 0) in *.
  apply window_fits; [lra|lra|]. rewrite reflect_length by lia. replace (2 * length v - 1)%nat with (2 * (length v - 1) + 1)%nat by lia. rewrite plus_INR, mult_INR. simpl (INR 2). simpl (INR 1).
  assert (6 * s / h <= 6 / h). { apply Rmult_le_compat_r; [left; apply Rinv_0_lt_compat; lra|lra]. } assert (6 / h <= 9 / h). { apply Rmult_le_compat_r; [left; apply Rinv_0_lt_compat; lra|lra]. }
  pose proof tiny. lra.
Qed.

Lemma sample_accepts v c mx s : grid_ok v -> length c = length (reflect v) -> 1 / 4 <= s <= 1 -> exists idx, sample_curve (reflect v) c mx s = Ok idx /\ asc idx /\
  (forall x, In x idx -> (0 <= x < Z.of_nat (length (reflect v)))%Z) /\ (6 <= length idx)%nat.
Proof.
  intros G HC Hs. pose proof (grid_facts v G) as [H _]. cbv zeta in *. destruct (middle_wide v G) as [lo [hi [LH W]]]. pose proof G as [L [Z [F [S E]]]]. pose proof (reflect_length v ltac:(lia)) as LR.
  pose proof (steps_increasing (1 / 10000) _ _ ltac:(lra) (reflect_between _ _ v ltac:(lia) Z S)) as I.
  destruct (sample_reduces (reflect v) c mx s I HC ltac:(lia)) as [cs [LC ->]]; [apply smear_fits; [assumption|lra]|].
  destruct (pick_ok (reflect v) cs mx lo hi LC LH W) as [idx [-> [A [_ [B [_ [Nr _]]]]]]]. exists idx. split; [reflexivity|]. split; [assumption|]. split; [apply B; lia|].
  set (N := length (reflect v)) in *. set (six := map Z.of_nat [0; 1; 2; N - 3; N - 2; N - 1]%nat). change 6%nat with (length six). apply NoDup_incl_length.
  - unfold six. apply FinFun.Injective_map_NoDup; [intros a b; lia|]. repeat constructor; simpl; intuition lia.
  - intros x Hx. unfold six in Hx. apply in_map_iff in Hx. destruct Hx as [k [<- Hk]]. apply Nr; [simpl in Hk; intuition lia|]. unfold near. fold N. simpl in Hk. right; right; right. intuition lia.
Qed.

Lemma init_ok v c p : grid_ok v -> length c = length v -> (1 <= kk_n p)%Z -> (1 <= spline_order p <= 5)%Z -> check_error p = false ->
  match v_smear p with None => True | Some s => (nth (length v - 1) v 0 - nth (length v - 2) v 0) / 3 <= s <= 1 end ->
  exists r, respfn_init spline dspline v c p = Ok r.
Proof.
  intros G HC HK HO HE HS. unfold respfn_init. pose proof G as [L [Z [F [S E]]]]. pose proof (reflect_length v ltac:(lia)) as LR.
  rewrite (pyget_nth v 0 0) by lia. change (0 <? 0)%Z with false. cbv iota. change (Z.to_nat 0) with 0%nat. cbn [bind]. rewrite Z. destruct (Reqb_spec 0 0); [|lra]. cbn [guard bind].
  rewrite (pyget_nth v (-1) 0) by lia. change (-1 <? 0)%Z with true. cbv iota. replace (Z.to_nat (-1 + Z.of_nat (length v))) with (length v - 1)%nat by lia. cbn [bind]. rewrite (Rltb_t _ _ F). cbn [guard bind]. cbv zeta.
  assert (SM : exists c', match v_smear p with None => Ok (reflect c) | Some s => smear_curve (reflect v) (reflect c) s end = Ok c' /\ length c' = length (reflect v)).
  { assert (LC : length (reflect c) = length (reflect v)) by (rewrite !reflect_length; lia). destruct (v_smear p) as [s|]; [|exists (reflect c); split; [reflexivity|assumption]].
    unfold smear_curve. rewrite !(pyget_nth (reflect v) _ 0) by lia. change (1 <? 0)%Z with false. change (0 <? 0)%Z with false. cbv iota. change (Z.to_nat 1) with 1%nat. change (Z.to_nat 0) with 0%nat. cbn [bind].
    pose proof (grid_facts v G) as [H _]. cbv zeta in H. pose proof (smear_fits v s G HS) as SF. rewrite reflect_first in SF by (lia || assumption). rewrite reflect_first by (lia || assumption). set (h := nth (length v - 1) v 0 - nth (length v - 2) v 0) in *.
    destruct (Reqb_spec h 0); [lra|]. cbn [negb guard bind]. rewrite bcast_eq by assumption. cbn [bind].
    assert (EX : exists y, gauss_conv (zipwith Rminus (reflect c) (reflect v)) (s / h) 3 = Ok y) by (apply conv_ok; rewrite zipwith_length, LC by assumption; assumption).
    destruct EX as [y EX]. rewrite EX. cbn [bind]. apply conv_length in EX. rewrite zipwith_length in EX by assumption. rewrite bcast_eq by lia. eexists. split; [reflexivity|]. rewrite zipwith_length; lia. }
  destruct SM as [c' [-> LC']]. cbn [bind].
  destruct (kk_length (reflect v) c' (kk_n p) LC' ltac:(lia) HK (proj2 (reflect_even v ltac:(lia) Z) E)) as [ckk [-> LKK]]. cbn [bind].
  unfold setup_interpolation. rewrite HE.
  destruct (sample_accepts v c' (max_npts_dc p) (1 / 4) G LC' ltac:(lra)) as [i1 [-> [A1 [B1 N1]]]]. cbn [bind].
  destruct (sample_accepts v c' (max_npts_kk p) 1 G LC' ltac:(lra)) as [i2 [-> [A2 [B2 N2]]]]. cbn [bind].
  pose proof (steps_increasing (1 / 10000) _ _ ltac:(lra) (reflect_between _ _ v ltac:(lia) Z S)) as I.
  repeat (rewrite at_indices_ok by (rewrite ?LC', ?LKK; assumption); cbn [bind]).
  rewrite interp_ok; [|now apply nodes_increasing|now rewrite !map_length|assumption|now rewrite map_length]. cbn [bind].
  repeat (rewrite at_indices_ok by (rewrite ?LC', ?LKK; assumption); cbn [bind]).
  rewrite interp_ok; [|now apply nodes_increasing|now rewrite !map_length|assumption|now rewrite map_length]. cbn [bind]. eexists. reflexivity.
Qed.

(** ** What an accepted object is *)
Lemma init_inv v c p r : respfn_init spline dspline v c p = Ok r ->
  (1 <= length v)%nat /\ nth 0 v 0 = 0 /\ 5 < nth (length v - 1) v 0 /\ rf_voltage r = reflect v /\ (v_smear p = None -> rf_current r = reflect c) /\
  (forall s, v_smear p = Some s -> smear_curve (reflect v) (reflect c) s = Ok (rf_current r)) /\ kk_trans (reflect v) (rf_current r) (kk_n p) = Ok (rf_current_kk r) /\
  exists f df, setup_interpolation spline dspline (reflect v) (rf_current r) (rf_current_kk r) p = Ok (f_idc r, f_ikk r, f, df) /\ f_didc r = Some f /\ f_dikk r = Some df.
Proof.
  unfold respfn_init. intros H. apply bind_ok in H. destruct H as [v0 [E0 H]].
  assert (L : (1 <= length v)%nat) by (destruct v; [discriminate|simpl; lia]). split; [assumption|].
  rewrite (pyget_nth v 0 0) in E0 by lia. injection E0 as <-. change (0 <? 0)%Z with false in H. cbv iota in H. change (Z.to_nat 0) with 0%nat in H. destruct (Reqb_spec (nth 0 v 0) 0); [|discriminate]. split; [assumption|]. cbn [guard bind] in H.
  rewrite (pyget_nth v (-1) 0) in H by lia. change (-1 <? 0)%Z with true in H. cbv iota in H. replace (Z.to_nat (-1 + Z.of_nat (length v))) with (length v - 1)%nat in H by lia. cbn [bind] in H.
  destruct (Rltb_spec 5 (nth (length v - 1) v 0)); [|discriminate]. split; [assumption|]. cbn [guard bind] in H. cbv zeta in H.
  apply bind_ok in H. destruct H as [c' [SM H]]. apply bind_ok in H. destruct H as [ckk [KK H]]. apply bind_ok in H. destruct H as [[[[f1 f2] f3] f4] [ST H]]. injection H as <-. cbn [rf_voltage rf_current rf_current_kk f_idc f_ikk f_didc f_dikk].
  split; [reflexivity|]. split; [intros N; rewrite N in SM; congruence|]. split; [intros s N; rewrite N in SM; congruence|]. split; [assumption|]. exists f3, f4. repeat split; assumption.
Qed.

(** Too few points are never accepted. *)
Lemma mapM_split {A B} (f : A -> res B) : forall l1 l2 ys, mapM f (l1 ++ l2) = Ok ys -> exists y1 y2, ys = y1 ++ y2 /\ mapM f l1 = Ok y1 /\ mapM f l2 = Ok y2.
Proof.
  induction l1 as [|a l1 IH]; intros l2 ys H; [exists [], ys; now repeat split|]. cbn [app mapM] in *. apply bind_ok in H. destruct H as [y [-> H]]. apply bind_ok in H. destruct H as [zs [H1 H]]. injection H as <-.
  destruct (IH l2 zs H1) as [y1 [y2 [-> [E1 E2]]]]. exists (y :: y1), y2. cbn [bind]. rewrite E1. now repeat split.
Qed.
Lemma mapM_cons {A B} (f : A -> res B) a l ys : mapM f (a :: l) = Ok ys -> exists y zs, ys = y :: zs /\ f a = Ok y /\ mapM f l = Ok zs.
Proof. cbn [mapM]. intros H. apply bind_ok in H. destruct H as [y [E H]]. apply bind_ok in H. destruct H as [zs [H1 H]]. injection H as <-. eauto. Qed.
Lemma too_short v c p : increasing v -> (length v <= 100)%nat -> ~ exists r, respfn_init spline dspline v c p = Ok r.
Proof.
  intros I HL [r H]. apply init_inv in H. destruct H as [L [Z [F [_ [_ [_ [_ [f [df [ST _]]]]]]]]]]. pose proof (reflect_length v L) as LR. pose proof (reflect_increasing v L Z I) as IR.
  unfold setup_interpolation in ST. apply bind_ok in ST. destruct ST as [idx [SC ST]]. apply bind_ok in ST. destruct ST as [idx2 [_ ST]]. apply bind_ok in ST. destruct ST as [xd [XD ST]]. apply bind_ok in ST. destruct ST as [yd [_ ST]].
  apply bind_ok in ST. destruct ST as [ff [IN _]]. unfold interp in IN. destruct (strictly_increasing xd) eqn:SI; [|discriminate]. clear IN.
  unfold sample_curve in SC. do 4 (apply bind_ok in SC; destruct SC as [? [_ SC]]). cbv zeta in SC. do 4 (apply bind_ok in SC; destruct SC as [? [_ SC]]).
  apply pick_inv in SC. destruct SC as [A [I0 [IN _]]]. set (w := reflect v) in *.
  destruct (in_split _ _ IN) as [l1 [l2 E]]. assert (I0' : In 0%Z l2).
  { rewrite E in I0, A. apply asc_app in A. destruct A as [_ [_ A]]. apply in_app_or in I0. destruct I0 as [I0|[I0|I0]]; [|lia|assumption]. specialize (A 0%Z (Z.of_nat (length w) - 201)%Z I0 (or_introl eq_refl)). lia. }
  destruct (in_split _ _ I0') as [l3 [l4 ->]]. rewrite E in XD. unfold at_indices in XD. apply mapM_split in XD. destruct XD as [y1 [y2 [-> [_ Y2]]]]. apply mapM_cons in Y2. destruct Y2 as [ya [y3 [-> [Ya Y3]]]].
  apply mapM_split in Y3. destruct Y3 as [y4 [y5 [-> [_ Y5]]]]. apply mapM_cons in Y5. destruct Y5 as [yb [y6 [-> [Yb _]]]].
  pose proof (increasing_spec _ SI _ _ _ _ _ eq_refl) as LT. rewrite (pyget_nth w 0 0) in Yb by lia. injection Yb as <-.
  destruct (Z_lt_dec (2 * Z.of_nat (length w) - 201) 0) as [Q|Q]; [rewrite pyget_err in Ya by lia; discriminate|].
  rewrite (pyget_nth w _ 0) in Ya by lia. injection Ya as <-. destruct (Z.ltb_spec (Z.of_nat (length w) - 201) 0); [|lia]. change (0 <? 0)%Z with false in LT. cbv iota in LT. change (Z.to_nat 0) with 0%nat in LT.
  specialize (IR 0%nat (Z.to_nat (Z.of_nat (length w) - 201 + Z.of_nat (length w))) ltac:(lia) ltac:(lia)). lra.
Qed.
(** Neither are uneven steps. *)
Lemma uneven v c p : (2 <= length v)%nat -> nth 0 v 0 = 0 -> 5 < nth (length v - 1) v 0 -> v_smear p = None ->
  (exists k, (S k < length v)%nat /\ / 10 ^ 5 <= Rabs ((nth (length v - 1) v 0 - nth (length v - 2) v 0) - (nth (S k) v 0 - nth k v 0))) ->
  respfn_init spline dspline v c p = Err AssertionError.
Proof.
  intros L Z F N [k [Hk U]]. unfold respfn_init.
  rewrite (pyget_nth v 0 0) by lia. change (0 <? 0)%Z with false. cbv iota. change (Z.to_nat 0) with 0%nat. cbn [bind]. rewrite Z. destruct (Reqb_spec 0 0); [|lra]. cbn [guard bind].
  rewrite (pyget_nth v (-1) 0) by lia. change (-1 <? 0)%Z with true. cbv iota. replace (Z.to_nat (-1 + Z.of_nat (length v))) with (length v - 1)%nat by lia. cbn [bind]. rewrite (Rltb_t _ _ F). cbn [guard bind]. cbv zeta.
  rewrite N. cbn [bind]. rewrite kk_uneven; [reflexivity|rewrite reflect_length; lia|]. rewrite reflect_even by assumption. intros E. specialize (E k Hk). lra.
Qed.
(** Documented checks. *)
Lemma not_zero v c p : (1 <= length v)%nat -> nth 0 v 0 <> 0 -> respfn_init spline dspline v c p = Err AssertionError.
Proof.
  intros L Z. unfold respfn_init. rewrite (pyget_nth v 0 0) by lia. change (0 <? 0)%Z with false. cbv iota. change (Z.to_nat 0) with 0%nat. cbn [bind]. destruct (Reqb_spec (nth 0 v 0) 0); [contradiction|reflexivity].
Qed.
Lemma too_low v c p : (1 <= length v)%nat -> nth (length v - 1) v 0 <= 5 -> respfn_init spline dspline v c p = Err AssertionError.
Proof.
  intros L F. unfold respfn_init. rewrite (pyget_nth v 0 0) by lia. change (0 <? 0)%Z with false. cbv iota. cbn [bind]. destruct (Reqb _ _); [|reflexivity]. cbn [guard bind].
  rewrite (pyget_nth v (-1) 0) by lia. change (-1 <? 0)%Z with true. cbv iota. replace (Z.to_nat (-1 + Z.of_nat (length v))) with (length v - 1)%nat by lia. cbn [bind]. rewrite Rltb_f by lra. reflexivity.
Qed.
End Accept.
