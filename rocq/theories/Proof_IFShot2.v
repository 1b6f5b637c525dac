(** Proofs about the range that the shot-noise line is fitted to if none is given. *)
From Coq Require Import List ZArith Bool Lia Arith Reals Lra Permutation.
From Verif Require Import Base Model_QtCurrent Proof_Circuit Proof_IVModels Float NumPy Proof_NumPy Spec_CleanData Proof_CleanData Model_CleanData Model_MathFn Spec_RespFn Model_RespFn Proof_RespFn2 Spec_IVData Model_IVData Proof_IVData Proof_IVCurve Spec_IFData Model_IFData Proof_IFNoise Proof_IFLoad Proof_IFShot Proof_IFCases Spec_IFShot.
Import ListNotations.
Open Scope R_scope.
Local Notation length := List.length.
Local Notation rising := Spec_RespFn.increasing.

(** ** The median *)
Lemma insert_perm a l : Permutation (rinsert a l) (a :: l).
Proof. induction l as [|b l IH]; [reflexivity|]. cbn [rinsert]. destruct (Rleb a b); [reflexivity|]. rewrite IH. apply perm_swap. Qed.
Definition ascending (l : list R) : Prop := forall i j, (i <= j < length l)%nat -> nth i l 0 <= nth j l 0.
Lemma ascending_tail a l : ascending (a :: l) -> ascending l.
Proof. intros H i j IJ. apply (H (S i) (S j)). cbn [List.length]. lia. Qed.
Lemma ascending_cons a l : ascending l -> (forall b, In b l -> a <= b) -> ascending (a :: l).
Proof.
  intros H B [|i] [|j] IJ; cbn [List.length nth] in *; try lia; [lra| |apply H; lia]. apply B. apply nth_In. lia.
Qed.
Lemma ascending_head a l b : ascending (a :: l) -> In b l -> a <= b.
Proof. intros H I. destruct (In_nth l b 0 I) as [k [K <-]]. apply (H 0%nat (S k)). cbn [List.length]. lia. Qed.
Lemma insert_ascending a l : ascending l -> ascending (rinsert a l).
Proof.
  induction l as [|b l IH]; intros H.
  - apply ascending_cons; [assumption|intros ? []].
  - cbn [rinsert]. unfold Rleb. destruct (Rle_dec a b) as [L|L].
    + apply ascending_cons; [assumption|]. intros c [<-|C]; [assumption|]. pose proof (ascending_head _ _ _ H C). lra.
    + apply ascending_cons; [apply IH; eapply ascending_tail; eauto|]. intros c C. apply (Permutation_in _ (insert_perm a l)) in C. destruct C as [<-|C]; [lra|]. eapply ascending_head; eauto.
Qed.
Lemma sorted_perm l : Permutation (fold_right rinsert [] l) l /\ ascending (fold_right rinsert [] l).
Proof.
  induction l as [|a l [P A]]; [split; [reflexivity|intros i j IJ; cbn in IJ; lia]|]. cbn [fold_right]. split; [rewrite insert_perm; now constructor|now apply insert_ascending].
Qed.
Lemma median_middle l : middle_value l (median l).
Proof.
  destruct (sorted_perm l) as [P A]. exists (fold_right rinsert [] l). split; [assumption|]. split; [assumption|]. unfold median. rewrite (Permutation_length P). destruct (Nat.even (length l)) eqn:E.
  - apply Nat.even_spec in E. destruct E as [h E]. rewrite E. replace (2 * h)%nat with (h * 2)%nat by lia. rewrite Nat.div_mul by lia. destruct h as [|h]; [reflexivity|].
    replace (S h * 2 - 1)%nat with (1 + h * 2)%nat by lia. rewrite Nat.div_add by lia. change (1 / 2)%nat with 0%nat. replace (S h - 1)%nat with h by lia. reflexivity.
  - assert (O : Nat.odd (length l) = true) by (unfold Nat.odd; now rewrite E). apply Nat.odd_spec in O. destruct O as [h O]. rewrite O. replace (2 * h + 1 - 1)%nat with (h * 2)%nat by lia. rewrite Nat.div_mul by lia.
    replace (2 * h + 1)%nat with (1 + h * 2)%nat by lia. rewrite Nat.div_add by lia. change (1 / 2)%nat with 0%nat. cbn [Nat.add]. field.
Qed.
Lemma median_const l a : l <> [] -> (forall b, In b l -> b = a) -> median l = a.
Proof.
  intros NE C. destruct (median_middle l) as [s [P [_ ->]]]. assert (L : (0 < length s)%nat) by (rewrite (Permutation_length P); destruct l; [contradiction|cbn; lia]).
  assert (K : forall k, (k < length s)%nat -> nth k s 0 = a) by (intros k K; apply C; apply (Permutation_in _ P); now apply nth_In).
  rewrite !K; [field|apply Nat.div_lt; lia|]. apply Nat.le_lt_trans with (length s - 1)%nat; [apply Nat.div_le_upper_bound; lia|lia].
Qed.

(** ** Masks *)
Lemma list_tab {A} (l : list A) d n : length l = n -> l = map (fun k => nth k l d) (seq 0 n).
Proof. intros <-. symmetry. apply map_nth_seq. Qed.
Lemma zipwith_tab {A B C} (f : A -> B -> C) n g h : zipwith f (map g (seq 0 n)) (map h (seq 0 n)) = map (fun k => f (g k) (h k)) (seq 0 n).
Proof. generalize (seq 0 n). intros l. induction l as [|a l IH]; [reflexivity|]. cbn. now rewrite IH. Qed.
Lemma bcast_tab {A B C} (f : A -> B -> C) n a b g h : a = map g (seq 0 n) -> b = map h (seq 0 n) -> bcast f a b = Ok (map (fun k => f (g k) (h k)) (seq 0 n)).
Proof. intros -> ->. rewrite bcast_eq by now rewrite !map_length. now rewrite zipwith_tab. Qed.
Lemma select_tab {B} n f (l : list B) d : length l = n -> select (map f (seq 0 n)) l = Ok (map (fun k => nth k l d) (filter f (seq 0 n))).
Proof. intros L. rewrite (list_tab l d n L) at 1. apply select_map. Qed.
(** Two neighbours. *)
Lemma clumps n (g : nat -> bool) : (1 <= n)%nat -> let mask := map g (seq 0 n) in
  (let* both := bcast andb (pyslice mask None (Some (-1)%Z)) (pyslice mask (Some 1%Z) None) in
   let* tmp := set_slice (repeat false (length mask)) None (Some (-1)%Z) both in bcast andb mask tmp) =
  Ok (map (fun k => g k && ((S k <? n)%nat && (g k && g (S k)))) (seq 0 n)).
Proof.
  intros N mask. assert (LM : length mask = n) by (unfold mask; now rewrite map_length, seq_length).
  assert (S1 : pyslice mask None (Some (-1)%Z) = map g (seq 0 (n - 1))).
  { apply (list_ext _ _ false); [rewrite pyslice_length, LM, slice_neg, map_length, seq_length by lia; lia|]. intros i I. rewrite nth_pyslice by assumption. rewrite pyslice_length, LM, slice_neg in I by lia. unfold mask. rewrite !nth_map_seq by lia. f_equal; lia. }
  assert (S2 : pyslice mask (Some 1%Z) None = map (fun k => g (S k)) (seq 0 (n - 1))).
  { apply (list_ext _ _ false); [rewrite pyslice_length, LM, slice_pos, map_length, seq_length by lia; lia|]. intros i I. rewrite nth_pyslice by assumption. rewrite pyslice_length, LM, slice_pos in I by lia. rewrite LM, slice_pos by lia. unfold mask. rewrite !nth_map_seq by lia. f_equal. lia. }
  rewrite S1, S2. rewrite (bcast_tab andb (n - 1) _ _ g (fun k => g (S k)) eq_refl eq_refl). cbn [bind]. unfold set_slice. cbv zeta. rewrite repeat_length, LM, slice_neg, map_length, seq_length by lia.
  replace (Nat.max 0 (n - Z.to_nat (- -1))) with (n - 1)%nat by lia. rewrite Nat.sub_0_r, Nat.eqb_refl. cbn [bind firstn app].
  apply (bcast_tab andb n); [reflexivity|]. apply (list_ext _ _ false).
  - rewrite app_length, skipn_length, repeat_length, !map_length, !seq_length. lia.
  - intros i I. rewrite app_length, skipn_length, repeat_length, map_length, seq_length in I. rewrite nth_map_seq by lia. destruct (Nat.ltb_spec (S i) n).
    + rewrite app_nth1 by (rewrite map_length, seq_length; lia). rewrite nth_map_seq by lia. reflexivity.
    + rewrite app_nth2 by (rewrite map_length, seq_length; lia). rewrite nth_skipn. rewrite nth_repeat' by (rewrite map_length, seq_length; lia). reflexivity.
Qed.
Lemma bind_assoc {A B C} (a : res A) (f : A -> res B) (g : B -> res C) : bind (bind a f) g = bind a (fun x => bind (f x) g).
Proof. destruct a; reflexivity. Qed.

Section Oracle.
Variable smooth : list R -> Z -> Z -> list R.
Hypothesis KL : keeps_length smooth.

Section Data.
Variables x d1 d2 : list R. Variable top : R.
Definition flatb (k : nat) : bool := Rltb (17 / 10) (nth k x 0) && Rltb (Rabs (nth k d2 0)) (top * (1 / 10 ^ 2)).
Definition flats : list nat := filter flatb (seq 0 (length x)).
Definition typical : R := median (map (fun k => nth k d1 0) flats).
Definition simb (k : nat) : bool := flatb k && (Rltb 0 (nth k d1 0) && Rltb (nth k d1 0) (typical * 2)).
Definition keepb (k : nat) : bool := simb k && ((S k <? length x)%nat && (simb k && simb (S k))).
End Data.
Definition slopes (x y : list R) : res (list R * list R) :=
  let* s1 := slope_span_n x (smooth y 21%Z 3%Z) 11 true in
  let* s1 := reals s1 in
  let* s2 := slope_span_n x (smooth s1 51%Z 3%Z) 11 true in
  let* s2 := reals s2 in
  Ok (smooth s1 51%Z 3%Z, smooth (map Rabs s2) 51%Z 3%Z).
Lemma reals_length l r : reals l = Ok r -> length r = length l.
Proof. intros H. apply reals_inv in H. subst l. now rewrite map_length. Qed.
Lemma span11_length x y d : length y = length x -> slope_span_n x y 11 true = Ok d -> length d = length x /\ (17 <= length x)%nat.
Proof.
  intros L H. destruct (Nat.le_gt_cases 17 (length x)) as [G|G].
  - destruct (Proof_Slope.span_spec x y L 5 ltac:(lia) true ltac:(lia)) as [d' [E [LD _]]]. change (2 * Z.of_nat 5 + 1)%Z with 11%Z in E. rewrite H in E. injection E as <-. split; assumption.
  - pose proof (Proof_Slope.span_short x y L 5 ltac:(lia) true ltac:(lia)) as E. change (2 * Z.of_nat 5 + 1)%Z with 11%Z in E. rewrite H in E. discriminate.
Qed.
Lemma slopes_lengths x y d1 d2 : length y = length x -> slopes x y = Ok (d1, d2) -> length d1 = length x /\ length d2 = length x /\ (17 <= length x)%nat.
Proof.
  intros L. unfold slopes. destruct (slope_span_n _ _ _ _) as [a|] eqn:E1; [|discriminate]. cbn [bind]. destruct (reals a) as [s1|] eqn:R1; [|discriminate]. cbn [bind]. destruct (slope_span_n x (smooth s1 _ _) _ _) as [b|] eqn:E2; [|discriminate]. cbn [bind]. destruct (reals b) as [s2|] eqn:R2; [|discriminate]. cbn [bind].
  intros H. injection H as <- <-. apply span11_length in E1; [|now rewrite KL]. apply reals_length in R1. apply reals_length in R2. apply span11_length in E2; [|rewrite KL; destruct E1; congruence]. destruct E1, E2. rewrite !KL, map_length. repeat split; try congruence; assumption.
Qed.
Lemma auto_eq x y : length y = length x -> auto_mask smooth x y =
  let* r := slopes x y in let* top := amax (map Rabs (snd r)) in Ok (map (keepb x (fst r) (snd r) top) (seq 0 (length x))).
Proof.
  intros L. assert (SL := slopes_lengths x y). unfold auto_mask. unfold slopes at 1. cbv zeta. rewrite !bind_assoc. unfold slopes in SL.
  destruct (slope_span_n x _ _ _) as [a|]; [|reflexivity]. cbn [bind] in *. rewrite !bind_assoc. destruct (reals a) as [s1|]; [|reflexivity]. cbn [bind] in *. rewrite !bind_assoc. destruct (slope_span_n x _ _ _) as [b|]; [|reflexivity]. cbn [bind] in *. rewrite !bind_assoc. destruct (reals b) as [s2|]; [|reflexivity]. cbn [bind fst snd] in *.
  destruct (SL _ _ L eq_refl) as [L1 [L2 LN]]. clear SL. set (d1 := smooth s1 51%Z 3%Z) in *. set (d2 := smooth (map Rabs s2) 51%Z 3%Z) in *. clearbody d1 d2.
  destruct (amax _) as [top|]; [|reflexivity]. cbn [bind]. set (n := length x) in *.
  rewrite (bcast_tab (fun a0 s => Rltb (17 / 10) a0 && Rltb (Rabs s) (top * (1 / 10 ^ 2))) n x d2 (fun k => nth k x 0) (fun k => nth k d2 0) (list_tab x 0 n eq_refl) (list_tab d2 0 n L2)). cbn [bind].
  change (fun k => Rltb (17 / 10) (nth k x 0) && Rltb (Rabs (nth k d2 0)) (top * (1 / 10 ^ 2))) with (flatb x d2 top). rewrite (select_tab n (flatb x d2 top) d1 0 L1). cbn [bind].
  assert (E : match map (fun k => nth k d1 0) (filter (flatb x d2 top) (seq 0 n)) with
              | [] => Ok (map (fun _ => false) (map (flatb x d2 top) (seq 0 n)))
              | _ => bcast (fun b0 d => b0 && (Rltb 0 d && Rltb d (median (map (fun k => nth k d1 0) (filter (flatb x d2 top) (seq 0 n))) * 2))) (map (flatb x d2 top) (seq 0 n)) d1
              end = Ok (map (simb x d1 d2 top) (seq 0 n))).
  { destruct (map _ (filter _ _)) as [|m l] eqn:EM.
    - f_equal. rewrite map_map. apply map_ext_in. intros k K. unfold simb. apply map_eq_nil in EM. destruct (flatb x d2 top k) eqn:F; [|reflexivity]. exfalso. assert (I : In k (filter (flatb x d2 top) (seq 0 n))) by (apply filter_In; auto). now rewrite EM in I.
    - rewrite <- EM. rewrite (bcast_tab _ n _ d1 (flatb x d2 top) (fun k => nth k d1 0) eq_refl (list_tab d1 0 n L1)). reflexivity. }
  rewrite E. cbn [bind]. rewrite clumps by lia. f_equal.
Qed.
Lemma rltb_iff a b : Rltb a b = true <-> a < b.
Proof. destruct (Rltb_spec a b); split; intros; try assumption; try reflexivity; try discriminate; contradiction. Qed.
Lemma flatb_iff x d2 top k : length d2 = length x -> amax (map Rabs d2) = Ok top -> (k < length x)%nat -> (flatb x d2 top k = true <-> flat x d2 k).
Proof.
  intros L T K. apply amax_ok in T. destruct T as [I M]. unfold flatb, flat. rewrite andb_true_iff, !rltb_iff. split.
  - intros [A B]. split; [assumption|]. split; [assumption|]. apply in_map_iff in I. destruct I as [d [<- D]]. destruct (In_nth _ _ 0 D) as [j [J <-]]. exists j. split; [assumption|]. lra.
  - intros [_ [A [j [J B]]]]. split; [assumption|]. assert (H : Rabs (nth j d2 0) <= top) by (apply M; apply in_map; now apply nth_In). lra.
Qed.
Lemma flats_iff x d2 top k : length d2 = length x -> amax (map Rabs d2) = Ok top -> (In k (flats x d2 top) <-> flat x d2 k).
Proof.
  intros L T. unfold flats. rewrite filter_In, in_seq. split.
  - intros [K F]. apply (flatb_iff x d2 top k L T) in F; [assumption|lia].
  - intros F. assert (K : (k < length x)%nat) by apply F. split; [lia|]. now apply flatb_iff.
Qed.
Lemma typical_spec x d1 d2 top : length d2 = length x -> amax (map Rabs d2) = Ok top -> typical_slope x d1 d2 (typical x d1 d2 top).
Proof.
  intros L T. exists (flats x d2 top). split; [apply NoDup_filter, seq_NoDup|]. split; [intros k; now apply flats_iff|apply median_middle].
Qed.
Lemma simb_iff x d1 d2 top k : length d2 = length x -> amax (map Rabs d2) = Ok top -> (k < length x)%nat -> (simb x d1 d2 top k = true <-> similar x d1 d2 (typical x d1 d2 top) k).
Proof. intros L T K. unfold simb, similar. rewrite !andb_true_iff, !rltb_iff, (flatb_iff x d2 top k L T K). rewrite Rmult_comm. tauto. Qed.
Lemma keepb_iff x d1 d2 top k : length d2 = length x -> amax (map Rabs d2) = Ok top -> (k < length x)%nat ->
  (keepb x d1 d2 top k = true <-> similar x d1 d2 (typical x d1 d2 top) k /\ similar x d1 d2 (typical x d1 d2 top) (S k)).
Proof.
  intros L T K. unfold keepb. rewrite !andb_true_iff, Nat.ltb_lt. split.
  - intros [A [B [_ C]]]. apply (simb_iff x d1 d2 top k L T K) in A. apply (simb_iff x d1 d2 top (S k) L T B) in C. auto.
  - intros [A C]. assert (B : (S k < length x)%nat) by apply C. rewrite !(simb_iff x d1 d2 top _ L T) by assumption. auto.
Qed.
Definition kept x d1 d2 top : list nat := filter (keepb x d1 d2 top) (seq 0 (length x)).
Definition auto_fit x y d1 d2 top : list (R * R) :=
  if (length (kept x d1 d2 top) <? 5)%nat then filter (fun p => if Rlt_dec 2 (fst p) then true else false) (List.combine x y) else map (fun k => (nth k x 0, nth k y 0)) (kept x d1 d2 top).
Lemma found x y d1 d2 top : length d2 = length x -> amax (map Rabs d2) = Ok top -> found_samples x y d1 d2 (auto_fit x y d1 d2 top).
Proof.
  intros L T. exists (typical x d1 d2 top), (kept x d1 d2 top). split; [now apply typical_spec|]. split; [apply NoDup_filter, seq_NoDup|]. split; [|reflexivity].
  intros k. unfold kept. rewrite filter_In, in_seq. split.
  - intros [K H]. apply (keepb_iff x d1 d2 top k L T) in H; [assumption|lia].
  - intros H. assert (K : (k < length x)%nat) by apply H. split; [lia|]. now apply keepb_iff.
Qed.
Lemma combine_tab (x y : list R) : length x = length y -> List.combine x y = map (fun k => (nth k x 0, nth k y 0)) (seq 0 (length x)).
Proof.
  intros L. apply (list_ext _ _ (0, 0)); [rewrite combine_length, map_length, seq_length; lia|]. intros i I. rewrite combine_length in I. rewrite combine_nth by assumption. rewrite nth_map_seq by lia. reflexivity.
Qed.
Lemma auto_noise x y dc : length x = length y -> find_if_noise smooth x y dc None =
  let* r := slopes x y in let* top := amax (map Rabs (snd r)) in calibrate x dc (auto_fit x y (fst r) (snd r) top).
Proof.
  intros L. unfold find_if_noise. rewrite auto_eq by congruence. rewrite !bind_assoc. destruct (slopes x y) as [[d1 d2]|]; [|reflexivity]. cbn [bind fst snd]. rewrite !bind_assoc. destruct (amax _) as [top|]; [|reflexivity]. cbn [bind].
  rewrite count_map. fold (kept x d1 d2 top). unfold auto_fit. destruct (combine_unzip x y L) as [E1 E2]. destruct (length (kept x d1 d2 top) <? 5)%nat.
  - assert (EM : forall g : R -> bool, map g x = map (fun p => g (fst p)) (List.combine x y)) by (intros g; rewrite <- E1 at 1; now rewrite map_map).
    rewrite EM. rewrite <- E1 at 2. rewrite select_map. cbn [bind]. rewrite <- E2 at 2. rewrite select_map. cbn [bind].
    assert (F2 : filter (fun p => Rltb 2 (fst p)) (List.combine x y) = filter (fun p => if Rlt_dec 2 (fst p) then true else false) (List.combine x y))
      by (apply filter_ext; intros p; destruct (Rlt_dec 2 (fst p)); rewrite ?Rltb_t, ?Rltb_f by lra; reflexivity).
    rewrite F2. reflexivity.
  - rewrite (select_tab (length x) _ x 0 eq_refl). cbn [bind]. rewrite (select_tab (length x) _ y 0 (eq_sym L)). cbn [bind]. fold (kept x d1 d2 top). unfold calibrate. rewrite !map_map. reflexivity.
Qed.
Lemma slopes_spec x y d1 d2 : slopes x y = Ok (d1, d2) <-> derivatives smooth x y d1 d2.
Proof.
  unfold slopes, derivatives. split.
  - destruct (slope_span_n _ _ _ _) as [a|] eqn:E1; [|discriminate]. cbn [bind]. destruct (reals a) as [s1|] eqn:R1; [|discriminate]. cbn [bind]. destruct (slope_span_n x (smooth s1 _ _) _ _) as [b|] eqn:E2; [|discriminate]. cbn [bind]. destruct (reals b) as [s2|] eqn:R2; [|discriminate]. cbn [bind].
    intros H. injection H as <- <-. apply reals_inv in R1. apply reals_inv in R2. subst a b. exists s1, s2. auto.
  - intros [s1 [s2 [E1 [-> [E2 ->]]]]]. rewrite E1. cbn [bind]. rewrite reals_map. cbn [bind]. rewrite E2. cbn [bind]. rewrite reals_map. reflexivity.
Qed.
(** The calibration with the samples found. *)
Lemma auto_calibration x y dc n corr line fit : length x = length y -> find_if_noise smooth x y dc None = Ok (n, corr, line, fit) ->
  exists d1 d2 P a b, derivatives smooth x y d1 d2 /\ found_samples x y d1 d2 P /\ best_line P a b /\ P <> [] /\ dc_vgap dc <> 0 /\ a <> 0 /\ corr * a = 5800 * dc_vgap dc /\
    line = map (fun t => (a * t + b) * corr) x /\ (rising x -> joined x line (nth 0 line 0) (nth (length x - 1) line 0) (dc_vint dc / dc_vgap dc) n) /\ (fit = true <-> 0 < n < 50).
Proof.
  intros L H. rewrite auto_noise in H by assumption. destruct (slopes x y) as [[d1 d2]|] eqn:SL; [|discriminate]. cbn [bind fst snd] in H. destruct (amax _) as [top|] eqn:T; [|discriminate]. cbn [bind] in H.
  destruct (slopes_lengths x y d1 d2 (eq_sym L) SL) as [L1 [L2 LN]]. apply calibrate_ok in H. destruct H as [NP [G [LX [a [b [BL [A [C [LI [N F]]]]]]]]]].
  exists d1, d2, (auto_fit x y d1 d2 top), a, b. split; [now apply slopes_spec|]. split; [now apply found|]. do 4 (split; [assumption|]). split; [rewrite C; field; assumption|]. split; [assumption|]. split; [|assumption].
  intros RX. rewrite N. apply interp_joined; [assumption| |assumption]. rewrite LI. apply map_length.
Qed.
Lemma dcif_auto s m dc q v p meta : sorting s -> dcif_data smooth s m dc q = Ok (v, p, meta) -> q_vshot q = None -> 0 < dc_vgap dc -> 0 < q_vmax q -> (2 <= q_npts q)%nat ->
  exists p0 d1 d2 P a b, load_if s m dc q = Ok (v, p0) /\ p = map (fun a => a * if_corr meta) p0 /\ derivatives smooth v p0 d1 d2 /\ found_samples v p0 d1 d2 P /\ P <> [] /\
    best_line P a b /\ a <> 0 /\ if_corr meta * a = 5800 * dc_vgap dc /\ if_shot meta = (v, map (fun t => (a * t + b) * if_corr meta) v) /\
    joined v (snd (if_shot meta)) (nth 0 (snd (if_shot meta)) 0) (nth (length v - 1) (snd (if_shot meta)) 0) (dc_vint dc / dc_vgap dc) (if_noise meta) /\
    (if_fit meta = true <-> 0 < if_noise meta < 50) /\ if_vmax meta = q_vmax q.
Proof.
  intros S H VS G VM NP. pose proof (dcif_top smooth s m dc q v p meta S H G VM NP) as TOP. apply dcif_inv in H; [|assumption]. destruct H as [p0 [E [EP [F FS]]]]. rewrite VS in F. pose proof E as GR. apply load_grid in GR; [|assumption]. destruct GR as [_ [EV LP]].
  assert (LV : length v = q_npts q) by (rewrite EV; apply linspace_length).
  apply auto_calibration in F; [|congruence]. destruct F as [d1 [d2 [P [a [b [DE [FO [BL [NF [_ [A [C [LI [J FI]]]]]]]]]]]]]]. exists p0, d1, d2, P, a, b. do 8 (split; [assumption|]).
  split; [destruct (if_shot meta); cbn [fst snd] in *; congruence|]. split; [|split; assumption]. apply J. rewrite EV. apply linspace_rising; [|assumption]. apply Rdiv_lt_0_compat; assumption.
Qed.
(** Every sample found lies above 1.7 gap voltages. *)
Lemma found_above x y d1 d2 P p : length x = length y -> found_samples x y d1 d2 P -> In p P -> 17 / 10 < fst p /\ In p (List.combine x y).
Proof.
  intros L [m [ks [_ [_ [K ->]]]]] I. destruct (length ks <? 5)%nat.
  - apply filter_In in I. destruct I as [I H]. split; [|assumption]. destruct (Rlt_dec 2 (fst p)); [lra|discriminate].
  - apply in_map_iff in I. destruct I as [k [<- I]]. apply K in I. destruct I as [[F _] _]. destruct F as [F1 [F2 _]]. split; [exact F2|]. rewrite combine_tab by assumption. apply in_map_iff. exists k. split; [reflexivity|]. apply in_seq. lia.
Qed.
Lemma if_auto s hot cold dc q v ph pc tn gain idx meta : sorting s -> if_data smooth s hot cold dc None q = Ok (v, ph, pc, tn, gain, idx, meta) -> q_vshot q = None -> 0 < dc_vgap dc -> 0 < q_vmax q -> (2 <= q_npts q)%nat ->
  exists h c d1 d2 P a b, load_if s hot dc q = Ok (v, h) /\ load_if s cold dc q = Ok (v, c) /\ ph = map (fun a => a * if_corr meta) h /\ pc = map (fun a => a * if_corr meta) c /\
    let y := map (fun k => (nth k h 0 + nth k c 0) / 2) (seq 0 (length v)) in
    derivatives smooth v y d1 d2 /\ found_samples v y d1 d2 P /\ P <> [] /\
    best_line P a b /\ a <> 0 /\ if_corr meta * a = 5800 * dc_vgap dc /\ if_shot meta = (v, map (fun t => (a * t + b) * if_corr meta) v) /\
    joined v (snd (if_shot meta)) (nth 0 (snd (if_shot meta)) 0) (nth (length v - 1) (snd (if_shot meta)) 0) (dc_vint dc / dc_vgap dc) (if_noise meta) /\
    (if_fit meta = true <-> 0 < if_noise meta < 50) /\ if_vmax meta = q_vmax q.
Proof.
  intros S H VS G VM NP. apply if_data_inv in H; [|assumption]. destruct H as [h [c [LH [LC [LV [HH [HC [EH [EC [_ [CA [top [AM TOP]]]]]]]]]]]]]. unfold calibration in CA. rewrite VS in CA. cbn [rmap] in CA.
  destruct (find_if_noise _ _ _ _ _) as [[[[n cr] l] ft]|] eqn:F; [|discriminate]. cbn [rmap] in CA. injection CA as C1 C2 C3 C4.
  assert (EA : average h c = map (fun k => (nth k h 0 + nth k c 0) / 2) (seq 0 (length v))).
  { unfold average. transitivity (zipwith (fun a b => (a + b) / 2) (map (fun k => nth k h 0) (seq 0 (length v))) (map (fun k => nth k c 0) (seq 0 (length v)))); [f_equal; apply list_tab; congruence|]. apply (zipwith_tab (fun a b => (a + b) / 2)). }
  rewrite EA in F. apply auto_calibration in F; [|now rewrite map_length, seq_length]. destruct F as [d1 [d2 [P [a [b [DE [FO [BL [NF [_ [A [C [LI [J FI]]]]]]]]]]]]]].
  exists h, c, d1, d2, P, a, b. do 4 (split; [assumption|]). cbv zeta. rewrite <- C1, <- C2, <- C3, <- C4. cbn [snd]. do 6 (split; [assumption|]). split; [now rewrite LI|]. apply load_grid in LH; [|assumption]. destruct LH as [_ [EV _]].
  split; [|split; [assumption|rewrite TOP; now apply (top_voltage v (dc_vgap dc) (q_vmax q) (q_npts q))]]. apply J. rewrite EV. apply linspace_rising; [|assumption]. apply Rdiv_lt_0_compat; assumption.
Qed.
End Oracle.
