(** Proofs about cleaning x-y data. *)
From Coq Require Import List ZArith Lia Bool Arith Sorting Permutation Reals Lra.
From Verif Require Import Base Model_QtCurrent Proof_Circuit Float NumPy Proof_NumPy Proof_IVModels Spec_CleanData Model_CleanData.
Import ListNotations.

(** ** Order *)
Lemma feq_refl a : number a -> feq a a = true.
Proof. destruct a; intros H; try discriminate; simpl; auto. now apply Reqb_t. Qed.
Lemma feq_eq a b : feq a b = true -> a = b.
Proof. destruct a, b; simpl; try discriminate; auto. destruct (Reqb_spec x x0); [intros _; now subst|discriminate]. Qed.
Lemma flt_spec_v x y : flt (FV x) (FV y) = true <-> (x < y)%R.
Proof. simpl. destruct (Rltb_spec x y); split; auto; try discriminate; intros; try lra. Qed.
Lemma fle_v x y : fle (FV x) (FV y) = true <-> (x <= y)%R.
Proof. unfold fle. simpl. destruct (Rltb_spec x y), (Reqb_spec x y); simpl; split; auto; try discriminate; intros; lra. Qed.
Lemma fle_antisym a b : fle a b = true -> fle b a = true -> a = b.
Proof. destruct a, b; intros H K; try reflexivity; try discriminate H; try discriminate K. apply fle_v in H, K. f_equal. lra. Qed.
Lemma fle_total a b : number a -> number b -> fle a b = true \/ fle b a = true.
Proof. destruct a, b; intros; try discriminate; auto. destruct (Rle_dec x x0); [left|right]; apply fle_v; lra. Qed.
Lemma fle_trans a b c : fle a b = true -> fle b c = true -> fle a c = true.
Proof. destruct a, b, c; try discriminate; auto; intros H K; try discriminate H; try discriminate K. apply fle_v in H, K. apply fle_v. lra. Qed.
Lemma flt_fle a b : flt a b = true -> fle a b = true.
Proof. intros H. unfold fle. now rewrite H. Qed.
Lemma flt_irrefl a : flt a a = false.
Proof. destruct a; auto. simpl. destruct (Rltb_spec x x); auto. lra. Qed.
Lemma fle_lt_or_eq a b : fle a b = true -> flt a b = true \/ a = b.
Proof. unfold fle. destruct (flt a b); auto. simpl. intros H. right. now apply feq_eq. Qed.
Lemma fle_lt_trans a b c : fle a b = true -> flt b c = true -> flt a c = true.
Proof. destruct a, b, c; try discriminate; auto; intros H K; try discriminate H; try discriminate K. apply fle_v in H. apply flt_spec_v in K. apply flt_spec_v. lra. Qed.
Lemma flt_le_trans a b c : flt a b = true -> fle b c = true -> flt a c = true.
Proof. destruct a, b, c; try discriminate; auto; intros H K; try discriminate H; try discriminate K. apply fle_v in K. apply flt_spec_v in H. apply flt_spec_v. lra. Qed.

Lemma sorted_unique {A} (R : A -> A -> Prop) l l' : (forall a b, In a l -> In b l -> R a b -> R b a -> a = b) ->
  StronglySorted R l -> StronglySorted R l' -> Permutation l l' -> l = l'.
Proof.
  revert l'. induction l as [|a l IH]; intros l' AS S S' P; [now apply Permutation_nil in P|].
  destruct l' as [|b l']; [apply Permutation_sym, Permutation_nil in P; discriminate|].
  assert (a = b).
  { assert (In a (b :: l')) by (eapply Permutation_in; [exact P|now left]). assert (In b (a :: l)) by (eapply Permutation_in; [apply Permutation_sym; exact P|now left]).
    destruct H as [->|Ha]; [reflexivity|]. destruct H0 as [->|Hb]; [reflexivity|].
    apply AS; [now left|now right| |]; [apply StronglySorted_inv in S; destruct S as [_ F]; rewrite Forall_forall in F; now apply F|apply StronglySorted_inv in S'; destruct S' as [_ F]; rewrite Forall_forall in F; now apply F]. }
  subst b. f_equal. apply IH.
  - intros; apply AS; auto; now right.
  - now apply StronglySorted_inv in S.
  - now apply StronglySorted_inv in S'.
  - now apply Permutation_cons_inv in P.
Qed.

(** ** Indexing *)
Lemma select_map {A B} (f : A -> bool) (g : A -> B) p : select (map f p) (map g p) = Ok (map g (filter f p)).
Proof.
  unfold select. rewrite !map_length, Nat.eqb_refl. f_equal. induction p as [|a p IH]; [reflexivity|]. simpl. destruct (f a); simpl; now rewrite IH.
Qed.
Lemma take_ok {A} (l : list A) idx d : Forall (fun k => (k < length l)%nat) idx -> take l idx = Ok (map (fun k => nth k l d) idx).
Proof.
  unfold take. induction 1 as [|k idx Hk F IH]; [reflexivity|]. cbn [mapM]. rewrite (pyget_nth l _ d) by lia. destruct (Z.ltb_spec (Z.of_nat k) 0); [lia|]. rewrite Nat2Z.id. cbn [bind]. rewrite IH. reflexivity.
Qed.
Lemma seq_range n : Forall (fun k => (k < n)%nat) (seq 0 n).
Proof. apply Forall_forall. intros k H. apply in_seq in H. lia. Qed.
Lemma idx_range argsort l : sorting argsort -> Forall (fun k => (k < length l)%nat) (argsort l).
Proof. intros S. eapply Permutation_Forall; [apply Permutation_sym; apply (S l)|apply seq_range]. Qed.

Definition flags_from := fix go (a : fl) (l : list fl) : list bool := match l with [] => [] | b :: l' => negb (feq b a) :: go b l' end.
Definition flags (l : list fl) : list bool := match l with [] => [] | a :: l' => true :: flags_from a l' end.
Definition dd_from {B} := fix go (a : fl) (l : list (fl * B)) : list (fl * B) :=
  match l with [] => [] | p :: l' => if feq (fst p) a then go (fst p) l' else p :: go (fst p) l' end.
Definition dd {B} (l : list (fl * B)) : list (fl * B) := match l with [] => [] | p :: l' => p :: dd_from (fst p) l' end.

Lemma flags_from_length a l : length (flags_from a l) = length l.
Proof. revert a; induction l; intros; simpl; auto. Qed.
Lemma pyslice_tail {A} (a : A) l : pyslice (a :: l) (Some 1%Z) None = l.
Proof. unfold pyslice. rewrite slice_pos by lia. replace (Nat.min (length (a :: l)) (Z.to_nat 1)) with 1%nat by (simpl; lia). cbn [skipn]. cbn [length]. rewrite Nat.sub_succ, Nat.sub_0_r. apply firstn_all. Qed.
Lemma pyslice_init {A} (a : A) l : pyslice (a :: l) None (Some (-1)%Z) = firstn (length l) (a :: l).
Proof. unfold pyslice. rewrite slice_neg by lia. cbn [skipn]. f_equal. simpl. lia. Qed.
Lemma zip_flags a l : zipwith (fun a b => negb (feq a b)) l (firstn (length l) (a :: l)) = flags_from a l.
Proof. revert a; induction l as [|b l IH]; intros a; [reflexivity|]. cbn [length firstn zipwith flags_from]. f_equal. apply IH. Qed.
Lemma mask_eq x : doubles_mask x = Ok (flags x).
Proof.
  unfold doubles_mask. destruct x as [|a l]; [reflexivity|]. rewrite pyslice_tail, pyslice_init. rewrite bcast_eq by (rewrite firstn_length; simpl; lia). rewrite zip_flags. cbn [bind].
  unfold set_slice. cbv zeta. rewrite repeat_length, slice_pos by lia. replace (Nat.min (length (a :: l)) (Z.to_nat 1)) with 1%nat by (simpl; lia).
  rewrite Nat.max_r by (simpl; lia). rewrite flags_from_length. replace (length l =? length (a :: l) - 1)%nat with true by (symmetry; apply Nat.eqb_eq; simpl; lia).
  f_equal. cbn [flags length repeat firstn app]. f_equal. rewrite skipn_all2 by (simpl; rewrite repeat_length; lia). apply app_nil_r.
Qed.
Lemma flags_len x : length (flags x) = length x.
Proof. destruct x; [reflexivity|]. simpl. now rewrite flags_from_length. Qed.
Lemma select_flags {A B} (g : fl * A -> B) q : select (flags (map fst q)) (map g q) = Ok (map g (dd q)).
Proof.
  unfold select. rewrite flags_len, !map_length, Nat.eqb_refl. f_equal. destruct q as [|p q]; [reflexivity|]. cbn [map flags List.combine filter fst snd dd]. f_equal.
  generalize (fst p). induction q as [|p' q IH]; intros a; [reflexivity|]. cbn [map flags_from List.combine filter dd_from fst snd]. destruct (feq (fst p') a); cbn [negb map]; rewrite IH; reflexivity.
Qed.

(** ** The pipeline on points *)
Lemma nans_xy x y : length x = length y -> remove_nans_xy x y = Ok (map fst (good_points x y), map snd (good_points x y)).
Proof.
  intros H. unfold remove_nans_xy. rewrite bcast_eq by now rewrite !map_length. cbn [bind].
  assert (E : forall x y, length x = length y -> zipwith andb (map (fun a => negb (fisnan a)) x) (map (fun a => negb (fisnan a)) y) = map (fun p => negb (fisnan (fst p)) && negb (fisnan (snd p))) (List.combine x y)).
  { induction x0 as [|a l IH]; intros [|b l'] L; try discriminate; [reflexivity|]. simpl. f_equal. apply IH. now injection L. }
  rewrite E by assumption.
  assert (F : forall x y : list fl, length x = length y -> map fst (List.combine x y) = x /\ map snd (List.combine x y) = y).
  { induction x0 as [|a l IH]; intros [|b l'] L; try discriminate; [split; reflexivity|]. simpl. destruct (IH l') as [-> ->]; [now injection L|]. split; reflexivity. }
  destruct (F x y H) as [F1 F2]. rewrite <- F1 at 2. rewrite select_map. cbn [bind]. rewrite <- F2 at 2. rewrite select_map. reflexivity.
Qed.

Definition reorder (idx : list nat) (g : list (fl * fl)) : list (fl * fl) := map (fun k => nth k g (FNaN, FNaN)) idx.
Lemma reorder_fst idx g : map fst (reorder idx g) = map (fun k => nth k (map fst g) FNaN) idx.
Proof. unfold reorder. rewrite map_map. apply map_ext. intros k. change FNaN with (fst (FNaN, FNaN)) at 3. now rewrite map_nth. Qed.
Lemma reorder_snd idx g : map snd (reorder idx g) = map (fun k => nth k (map snd g) FNaN) idx.
Proof. unfold reorder. rewrite map_map. apply map_ext. intros k. change FNaN with (snd (FNaN, FNaN)) at 3. now rewrite map_nth. Qed.
Lemma reorder_perm idx g : Permutation idx (seq 0 (length g)) -> Permutation (reorder idx g) g.
Proof. intros P. unfold reorder. eapply Permutation_trans; [apply Permutation_map; exact P|]. rewrite map_nth_seq. apply Permutation_refl. Qed.
Lemma sort_pairs argsort g : sorting argsort ->
  sort_xy argsort (map fst g) (map snd g) = Ok (map fst (reorder (argsort (map fst g)) g), map snd (reorder (argsort (map fst g)) g)).
Proof.
  intros S. unfold sort_xy. pose proof (idx_range argsort (map fst g) S) as F. rewrite map_length in F.
  rewrite (take_ok _ _ FNaN) by now rewrite map_length. cbn [bind]. rewrite (take_ok _ _ FNaN) by now rewrite map_length. cbn [bind]. now rewrite reorder_fst, reorder_snd.
Qed.

(** The check. *)
Fixpoint diffs_ok (a : fl) (l : list fl) : Prop := match l with [] => True | b :: l' => fle (FV 0) (fsub b a) = true /\ diffs_ok b l' end.
Lemma fmin_ok l a : fle (FV 0) (fold_left fminimum l a) = true <-> fle (FV 0) a = true /\ Forall (fun b => fle (FV 0) b = true) l.
Proof.
  revert a; induction l as [|b l IH]; intros a; cbn [fold_left].
  - split; [intros; split; auto|tauto].
  - rewrite IH. assert (E : fle (FV 0) (fminimum a b) = true <-> fle (FV 0) a = true /\ fle (FV 0) b = true).
    { unfold fminimum. destruct (fisnan a) eqn:NA; [destruct a; try discriminate; simpl; intuition discriminate|]. destruct (fisnan b) eqn:NB; [destruct b; try discriminate; simpl; intuition discriminate|]. cbn [orb].
      destruct (flt b a) eqn:L.
      - split; [intros K; split; [eapply fle_trans; [exact K|now apply flt_fle]|assumption]|tauto].
      - split; [intros K; split; [assumption|]|tauto]. destruct (fle_total a b) as [T|T]; auto; [eapply fle_trans; eauto|]. destruct (fle_lt_or_eq b a T) as [T'|T']; [congruence|now subst]. }
    rewrite E. split; [intros [[? ?] ?]; split; auto|intros [? F]; inversion F; subst; tauto].
Qed.
Lemma check_eq x : match x with
  | [] | [_] => check_sorted x = Err ValueError
  | a :: l => (diffs_ok a l -> check_sorted x = Ok tt) /\ (~ diffs_ok a l -> check_sorted x = Err AssertionError) end.
Proof.
  destruct x as [|a [|b l]]; [reflexivity|reflexivity|]. unfold check_sorted. rewrite pyslice_tail, pyslice_init, bcast_eq by (rewrite firstn_length; simpl; lia). cbn [bind].
  assert (Z : forall a l, Forall (fun d => fle (FV 0) d = true) (zipwith fsub l (firstn (length l) (a :: l))) <-> diffs_ok a l).
  { intros a0 l0; revert a0; induction l0 as [|c l0 IH]; intros a0; [split; simpl; auto|]. cbn [length firstn zipwith diffs_ok]. rewrite <- IH. split; [intros K; inversion K; tauto|intros [? ?]; now constructor]. }
  specialize (Z a (b :: l)). cbn [length firstn zipwith] in *. set (z := zipwith fsub l _) in *. cbn [amin bind].
  assert (Z' : fle (FV 0) (fold_left fminimum z (fsub b a)) = true <-> diffs_ok a (b :: l)).
  { rewrite fmin_ok, <- Z. split; [intros [? ?]; now constructor|intros K; inversion K; tauto]. }
  destruct (fle (FV 0) (fold_left fminimum z (fsub b a))); split; intros K; auto; [exfalso; apply K; tauto|exfalso; apply Z' in K; discriminate].
Qed.

Lemma doubles_pairs (q : list (fl * fl)) : remove_doubles_xy (map fst q) (map snd q) true =
  let* _ := check_sorted (map fst q) in Ok (map fst (dd q), map snd (dd q)).
Proof.
  unfold remove_doubles_xy. destruct (check_sorted (map fst q)); [|reflexivity]. cbn [bind]. rewrite mask_eq. cbn [bind]. rewrite select_flags. cbn [bind]. rewrite select_flags. reflexivity.
Qed.

Lemma clean_eq argsort x y : sorting argsort -> length x = length y ->
  let g := good_points x y in let q := reorder (argsort (map fst g)) g in
  clean_xy argsort x y = (let* _ := check_sorted (map fst q) in Ok (map fst (dd q), map snd (dd q))).
Proof.
  intros S HL g q. unfold clean_xy. rewrite HL, Nat.eqb_refl. cbn [guard bind]. rewrite nans_xy by assumption. cbn [bind]. fold g. rewrite sort_pairs by assumption. cbn [bind]. apply doubles_pairs.
Qed.
Lemma clean_len argsort x y : length x <> length y -> clean_xy argsort x y = Err AssertionError.
Proof. intros H. unfold clean_xy. apply Nat.eqb_neq in H. now rewrite H. Qed.

(** ** Properties of the kept points *)
Lemma good_numbers x y : Forall (fun p => number (fst p) /\ number (snd p)) (good_points x y).
Proof.
  apply Forall_forall. intros p H. apply filter_In in H. destruct H as [_ H]. apply andb_true_iff in H. destruct H as [A B]. unfold number. now apply negb_true_iff in A, B.
Qed.
Lemma sorted_fle l : Forall number l -> StronglySorted before l -> StronglySorted (fun a b => fle a b = true) l.
Proof.
  intros F S. induction S as [|a l S IH H]; constructor; inversion F; subst; auto. rewrite Forall_forall in *. intros b Hb. destruct (H b Hb) as [|N]; auto. unfold number in *. rewrite H3 in N by assumption. discriminate.
Qed.
Lemma dd_sub {B} (l : list (fl * B)) a p : In p (dd_from a l) -> In p l.
Proof. revert a; induction l as [|b l IH]; intros a; simpl; auto. destruct (feq (fst b) a); simpl; firstorder. Qed.
Lemma dd_cover (l : list (fl * fl)) a p : number a -> Forall (fun p => number (fst p)) l -> In p l -> fst p = a \/ exists p', In p' (dd_from a l) /\ fst p' = fst p.
Proof.
  revert a; induction l as [|b l IH]; intros a Na F H; [destruct H|]. inversion F; subst. simpl. destruct (feq (fst b) a) eqn:E.
  - apply feq_eq in E. destruct H as [->|H]; [now left|]. destruct (IH (fst b) H2 H3 H) as [K|K]; [left; congruence|now right].
  - destruct H as [->|H]; [right; exists p; simpl; auto|]. destruct (IH (fst b) H2 H3 H) as [K|[p' [I K]]]; [right; exists b; simpl; auto|right; exists p'; simpl; auto].
Qed.
Lemma dd_sorted {B} (l : list (fl * B)) a : number a -> Forall (fun p => number (fst p)) l -> StronglySorted (fun a b => fle a b = true) (a :: map fst l) ->
  StronglySorted (fun a b => flt a b = true) (a :: map fst (dd_from a l)).
Proof.
  revert a; induction l as [|b l IH]; intros a Na F S; [simpl; repeat constructor|]. inversion F; subst. cbn [map] in S.
  apply StronglySorted_inv in S. destruct S as [S1 S2]. inversion S2; subst. cbn [dd_from]. destruct (feq (fst b) a) eqn:E.
  - apply feq_eq in E. rewrite E in *. apply IH; auto.
  - assert (L : flt a (fst b) = true). { destruct (fle_lt_or_eq _ _ H3) as [|K]; auto. rewrite K in E. rewrite feq_refl in E by assumption. discriminate. }
    pose proof (IH (fst b) H1 H2 S1) as G. cbn [map]. constructor; [assumption|]. constructor; [assumption|]. apply StronglySorted_inv in G. destruct G as [_ G]. eapply Forall_impl; [|exact G]. intros c Hc. simpl in Hc. eapply fle_lt_trans; [apply flt_fle; exact L|exact Hc].
Qed.

Lemma point_combine x y a b : length x = length y -> (point x y a b <-> In (a, b) (List.combine x y)).
Proof.
  unfold point. revert y; induction x as [|c x IH]; intros [|d y] H; try discriminate.
  - split; [intros [k [K _]]; destruct k; discriminate|intros []].
  - simpl. rewrite <- IH by (now injection H). split.
    + intros [[|k] [K1 K2]]; simpl in *; [left; congruence|right; eauto].
    + intros [K|[k [K1 K2]]]; [exists 0%nat; simpl; split; congruence|exists (S k); auto].
Qed.
Lemma combine_map (q : list (fl * fl)) : List.combine (map fst q) (map snd q) = q.
Proof. induction q as [|[a b] q IH]; [reflexivity|]. simpl. now rewrite IH. Qed.
Lemma good_point x y a b : length x = length y -> (In (a, b) (good_points x y) <-> point x y a b /\ number a /\ number b).
Proof.
  intros H. unfold good_points. rewrite filter_In, point_combine by assumption. simpl. rewrite andb_true_iff, !negb_true_iff. unfold number. tauto.
Qed.

Lemma clean_props argsort x y x' y' : sorting argsort -> clean_xy argsort x y = Ok (x', y') ->
  length x' = length y' /\ Forall number x' /\ Forall number y' /\ increasing x' /\
  (forall a b, point x' y' a b -> point x y a b) /\
  (forall a b, point x y a b -> number a -> number b -> exists b', point x' y' a b').
Proof.
  intros S E. destruct (Nat.eq_dec (length x) (length y)) as [HL|HL]; [|rewrite clean_len in E by assumption; discriminate].
  rewrite (clean_eq argsort x y S HL) in E. set (g := good_points x y) in *. set (q := reorder _ g) in *. 
  destruct (check_sorted (map fst q)) as [u|]; [|discriminate]. cbn [bind] in E. injection E as <- <-.
  assert (P : Permutation q g). { apply reorder_perm. rewrite <- (map_length fst). apply (S (map fst g)). }
  assert (N : Forall (fun p => number (fst p) /\ number (snd p)) q) by (eapply Permutation_Forall; [apply Permutation_sym; exact P|apply good_numbers]).
  assert (SS : StronglySorted (fun a b => fle a b = true) (map fst q)).
  { apply sorted_fle; [rewrite Forall_map; eapply Forall_impl; [|exact N]; simpl; tauto|]. unfold q. rewrite reorder_fst. apply (S (map fst g)). }
  assert (IN : forall p, In p (dd q) -> In p q). { destruct q as [|p0 q0]; [auto|]. intros p [->|K]; [now left|right; eapply dd_sub; eauto]. }
  rewrite !map_length. split; [reflexivity|]. rewrite !Forall_map. rewrite Forall_forall in N.
  split; [apply Forall_forall; intros p Hp; apply N; auto|]. split; [apply Forall_forall; intros p Hp; apply N; auto|].
  split; [|split].
  - destruct q as [|p0 q0]; [constructor|]. cbn [dd map]. apply dd_sorted; [apply N; now left|apply Forall_forall; intros; apply N; now right|exact SS].
  - intros a b. rewrite point_combine by now rewrite !map_length. rewrite combine_map. intros H. apply (good_point x y) ; [assumption|]. eapply Permutation_in; [exact P|auto].
  - intros a b Hp Na Nb. assert (I : In (a, b) q). { eapply Permutation_in; [apply Permutation_sym; exact P|]. apply good_point; auto. }
    assert (exists p', In p' (dd q) /\ fst p' = a) as [[a' b'] [I' F]].
    { destruct q as [|p0 q0]; [destruct I|]. destruct I as [->|I]; [exists (a, b); split; [now left|reflexivity]|].
      destruct (dd_cover q0 (fst p0) (a, b)) as [K|[p' [K1 K2]]]; auto; [apply N; now left|apply Forall_forall; intros; apply N; now right|exists p0; split; [now left|auto]|exists p'; split; [now right|assumption]]. }
    simpl in F. subst a'. exists b'. apply point_combine; [now rewrite !map_length|]. now rewrite combine_map.
Qed.

(** ** Cleaning again *)
Lemma seq_sorted a n : StronglySorted le (seq a n).
Proof. revert a; induction n; intros a; simpl; constructor; auto. apply Forall_forall. intros k H. apply in_seq in H. lia. Qed.
Lemma increasing_nth x i j : increasing x -> (i < j < length x)%nat -> flt (nth i x FNaN) (nth j x FNaN) = true.
Proof.
  intros S. revert i j. induction S as [|a l S IH H]; intros i j Hij; [simpl in Hij; lia|]. destruct j as [|j]; [lia|]. destruct i as [|i]; simpl in *.
  - rewrite Forall_forall in H. apply H. apply nth_In. lia.
  - apply IH. lia.
Qed.
Lemma argsort_id argsort x : sorting argsort -> Forall number x -> increasing x -> argsort x = seq 0 (length x).
Proof.
  intros S N I. destruct (S x) as [P SS]. apply (sorted_unique le); [intros; lia| |apply seq_sorted|assumption].
  assert (R : Forall (fun k => (k < length x)%nat) (argsort x)) by now apply idx_range.
  remember (argsort x) as idx. clear Heqidx P. induction idx as [|k idx IH]; [constructor|]. inversion R; subst. cbn [map] in SS. apply StronglySorted_inv in SS. destruct SS as [S1 S2]. constructor; [auto|].
  apply Forall_forall. intros j Hj. rewrite Forall_forall in S2, H2. destruct (Nat.le_gt_cases k j) as [|G]; auto. exfalso.
  assert (L : flt (nth j x FNaN) (nth k x FNaN) = true) by (apply increasing_nth; auto).
  destruct (S2 (nth j x FNaN)) as [K|K]; [apply in_map_iff; eauto| |].
  - pose proof (fle_lt_trans _ _ _ K L) as F. rewrite flt_irrefl in F. discriminate.
  - rewrite Forall_forall in N. rewrite (N (nth j x FNaN)) in K; [discriminate|]. apply nth_In. auto.
Qed.
Lemma dd_increasing (q : list (fl * fl)) : increasing (map fst q) -> dd q = q.
Proof.
  destruct q as [|p q]; [reflexivity|]. cbn [dd map]. intros S. f_equal. revert p S; induction q as [|b q IH]; intros p S; [reflexivity|]. cbn [dd_from map] in *.
  assert (L : flt (fst p) (fst b) = true) by (inversion S as [|? ? ? F]; inversion F; assumption).
  destruct (feq (fst b) (fst p)) eqn:E; [apply feq_eq in E; rewrite E, flt_irrefl in L; discriminate|]. f_equal. apply IH. now inversion S.
Qed.
Lemma diffs_increasing a l : increasing (a :: l) -> diffs_ok a l.
Proof.
  revert a; induction l as [|b l IH]; intros a S; [exact I|]. cbn [diffs_ok]. split; [|apply IH; now inversion S].
  assert (L : flt a b = true) by (inversion S as [|? ? ? F]; inversion F; assumption).
  destruct a, b; try discriminate; try reflexivity. simpl in L. apply flt_spec_v in L. apply fle_v. lra.
Qed.
Lemma good_all x y : length x = length y -> Forall number x -> Forall number y -> good_points x y = List.combine x y.
Proof.
  intros H. unfold good_points. revert y H; induction x as [|a x IH]; intros [|b y] H; try discriminate; [reflexivity|]. intros A B. inversion A; inversion B; subst. simpl.
  unfold number in *. rewrite H2, H6. simpl. f_equal. apply IH; auto.
Qed.
Lemma combine_fst (x y : list fl) : length x = length y -> map fst (List.combine x y) = x.
Proof. revert y; induction x; intros [|b y] H; try discriminate; [reflexivity|]. simpl. f_equal. apply IHx. now injection H. Qed.
Lemma combine_snd (x y : list fl) : length x = length y -> map snd (List.combine x y) = y.
Proof. revert y; induction x; intros [|b y] H; try discriminate; [reflexivity|]. simpl. f_equal. apply IHx. now injection H. Qed.
Lemma clean_clean argsort x y : sorting argsort -> length x = length y -> Forall number x -> Forall number y -> increasing x -> (2 <= length x)%nat -> clean_xy argsort x y = Ok (x, y).
Proof.
  intros S HL Nx Ny I L2. rewrite (clean_eq argsort x y S HL). rewrite good_all by assumption. rewrite combine_fst by assumption. rewrite argsort_id by assumption.
  assert (RO : reorder (seq 0 (length x)) (List.combine x y) = List.combine x y).
  { unfold reorder. replace (length x) with (length (List.combine x y)) by (rewrite combine_length; lia). apply map_nth_seq. }
  rewrite RO, combine_fst by assumption. rewrite dd_increasing by now rewrite combine_fst. rewrite combine_fst, combine_snd by assumption.
  pose proof (check_eq x) as C. destruct x as [|a [|b l]]; [simpl in L2; lia|simpl in L2; lia|]. destruct C as [C _]. rewrite C; [reflexivity|]. now apply diffs_increasing.
Qed.

(** ** Acceptance *)
Fixpoint count (a : fl) (l : list fl) : nat := match l with [] => 0 | b :: l' => ((if feq b a then 1 else 0) + count a l')%nat end.
Lemma count_filter (a : fl) (g : list (fl * fl)) : length (filter (fun p => feq (fst p) a) g) = count a (map fst g).
Proof. induction g as [|p g IH]; [reflexivity|]. simpl. destruct (feq (fst p) a); simpl; rewrite IH; reflexivity. Qed.
Lemma count_perm a l l' : Permutation l l' -> count a l = count a l'.
Proof. induction 1; simpl; lia. Qed.
Lemma count_pos a l : In a l -> number a -> (1 <= count a l)%nat.
Proof. intros H N. induction l as [|b l IH]; [destruct H|]. simpl. destruct H as [->|H]; [rewrite feq_refl by assumption; lia|]. specialize (IH H). lia. Qed.
Lemma count_zero a l : (forall b, In b l -> b <> a) -> count a l = 0%nat.
Proof. induction l as [|b l IH]; intros H; [reflexivity|]. simpl. rewrite IH by (intros; apply H; now right). destruct (feq b a) eqn:E; [|reflexivity]. apply feq_eq in E. exfalso. apply (H b); [now left|assumption]. Qed.

Lemma diffs_inf a l : Forall number (a :: l) -> StronglySorted (fun a b => fle a b = true) (a :: l) ->
  (diffs_ok a l <-> (count FPInf (a :: l) <= 1)%nat /\ (count FNInf (a :: l) <= 1)%nat).
Proof.
  revert a; induction l as [|b l IH]; intros a N S.
  - simpl. destruct (feq a FPInf), (feq a FNInf); split; auto; intros; lia.
  - inversion N; subst. inversion S; subst. inversion H4; subst. cbn [diffs_ok]. rewrite IH by assumption. change (count FPInf (a :: b :: l)) with ((if feq a FPInf then 1 else 0) + count FPInf (b :: l))%nat. change (count FNInf (a :: b :: l)) with ((if feq a FNInf then 1 else 0) + count FNInf (b :: l))%nat.
    assert (Sb : forall c, In c (b :: l) -> fle b c = true). { inversion H3 as [|? ? ? H9]; subst. rewrite Forall_forall in H9. intros c [<-|Hc]; auto. unfold fle. rewrite feq_refl by (inversion H2; auto). apply orb_true_r. }
    destruct a; try discriminate; cbn [feq].
    + assert (Z : count FNInf (b :: l) = 0%nat). { apply count_zero. intros c Hc ->. specialize (Sb _ Hc). pose proof (fle_trans _ _ _ H5 Sb). discriminate. } rewrite Z.
      split; [intros [_ ?]; lia|]. intros [? ?]. split; [|lia]. destruct b; try discriminate; [|reflexivity]. apply fle_v in H5. cbn [fsub fadd fopp]. apply fle_v. lra.
    + (* +inf first: b is +inf *)
      assert (B : b = FPInf) by (destruct b; try discriminate; reflexivity). subst b. cbn [fsub fopp fadd]. split; [intros [? _]; discriminate|]. intros [K _]. exfalso. pose proof (count_pos FPInf (FPInf :: l) ltac:(now left) eq_refl). lia.
    + destruct b; try (now inversion H2); cbn [fsub fopp fadd].
      * assert (Z : count FNInf (FV x :: l) = 0%nat). { apply count_zero. intros c Hc ->. specialize (Sb _ Hc). discriminate. } rewrite Z. split; [intros [_ ?]; lia|intros [? ?]; split; [reflexivity|lia]].
      * assert (Z : count FNInf (FPInf :: l) = 0%nat). { apply count_zero. intros c Hc ->. specialize (Sb _ Hc). discriminate. } rewrite Z. split; [intros [_ ?]; lia|intros [? ?]; split; [reflexivity|lia]].
      * split; [intros [? _]; discriminate|]. intros [_ K]. exfalso. pose proof (count_pos FNInf (FNInf :: l) ltac:(now left) eq_refl). lia.
Qed.

Lemma clean_accepts argsort x y : sorting argsort -> length x = length y ->
  let n := length (good_points x y) in
  ((exists r, clean_xy argsort x y = Ok r) <-> (2 <= n)%nat /\ (points_at x y FPInf <= 1)%nat /\ (points_at x y FNInf <= 1)%nat) /\
  ((n < 2)%nat <-> clean_xy argsort x y = Err ValueError) /\
  ((2 <= n)%nat -> (points_at x y FPInf >= 2)%nat \/ (points_at x y FNInf >= 2)%nat -> clean_xy argsort x y = Err AssertionError).
Proof.
  intros S HL. cbv zeta. rewrite (clean_eq argsort x y S HL). unfold points_at. set (g := good_points x y) in *. set (q := reorder _ g).
  assert (P : Permutation q g). { apply reorder_perm. rewrite <- (map_length fst). apply (S (map fst g)). }
  assert (N : Forall number (map fst q)). { rewrite Forall_map. eapply Permutation_Forall; [apply Permutation_sym; exact P|]. eapply Forall_impl; [|apply good_numbers]. simpl. tauto. }
  assert (SS : StronglySorted (fun a b => fle a b = true) (map fst q)).
  { apply sorted_fle; [exact N|]. unfold q. rewrite reorder_fst. apply (S (map fst g)). }
  rewrite !count_filter. rewrite <- (Permutation_length P), <- (count_perm FPInf _ _ (Permutation_map fst P)), <- (count_perm FNInf _ _ (Permutation_map fst P)).
  rewrite <- (map_length fst q). generalize (dd q). intros d. clearbody q. clear P g. pose proof (check_eq (map fst q)) as C. set (l := map fst q) in *. clearbody l.
  destruct l as [|a [|b l]].
  - rewrite C. cbn [bind length]. split; [split; [intros [r K]; discriminate|intros; lia]|]. split; [split; auto; lia|lia].
  - rewrite C. cbn [bind length]. split; [split; [intros [r K]; discriminate|intros; lia]|]. split; [split; auto; lia|lia].
  - destruct C as [C1 C2]. pose proof (diffs_inf a (b :: l) N SS) as D. cbn [length]. destruct (Classical_Prop.classic (diffs_ok a (b :: l))) as [K|K].
    + rewrite C1 by assumption. cbn [bind]. split; [split; [intros _; split; [lia|tauto]|intros; eauto]|]. split; [split; [lia|discriminate]|]. intros _ X. apply D in K. lia.
    + rewrite C2 by assumption. cbn [bind]. split; [split; [intros [r X]; discriminate|intros [_ X]; tauto]|]. split; [split; [lia|discriminate]|reflexivity].
Qed.

(** ** Matrices *)
Definition as_rows (q : list (fl * fl)) : list (list fl) := map (fun p => [fst p; snd p]) q.
Lemma column0 q : column {| ncols := 2; rows := as_rows q |} 0 = Ok (map fst q).
Proof. unfold column, as_rows. simpl. rewrite map_map. reflexivity. Qed.
Lemma column1 q : column {| ncols := 2; rows := as_rows q |} 1 = Ok (map snd q).
Proof. unfold column, as_rows. simpl. rewrite map_map. reflexivity. Qed.
Lemma to_matrix x y : length x = length y -> xy_to_matrix x y = Ok {| ncols := 2; rows := as_rows (List.combine x y) |}.
Proof.
  intros H. unfold xy_to_matrix. rewrite H, Nat.eqb_refl. cbn [guard bind]. do 2 f_equal. revert y H; induction x; intros [|b y] H; try discriminate; [reflexivity|]. simpl. f_equal. apply IHx. now injection H.
Qed.
Lemma clean_matrix_eq argsort x y : sorting argsort -> length x = length y ->
  (let* m := xy_to_matrix x y in clean_matrix argsort m) = (let* p := clean_xy argsort x y in xy_to_matrix (fst p) (snd p)).
Proof.
  intros S HL. rewrite to_matrix by assumption. cbn [bind]. rewrite (clean_eq argsort x y S HL). unfold clean_matrix. cbn [ncols Nat.eqb guard bind].
  unfold remove_nans_matrix. rewrite column0, column1. cbn [bind]. rewrite bcast_eq by now rewrite !map_length. cbn [bind].
  assert (E : forall q : list (fl * fl), zipwith andb (map (fun a => negb (fisnan a)) (map fst q)) (map (fun a => negb (fisnan a)) (map snd q)) = map (fun p => negb (fisnan (fst p)) && negb (fisnan (snd p))) q).
  { induction q as [|p q IH]; [reflexivity|]. simpl. now rewrite IH. }
  rewrite E. cbn [rows ncols]. unfold as_rows at 1. rewrite select_map. cbn [bind]. fold (good_points x y). set (g := good_points x y). fold (as_rows g).
  unfold sort_matrix. rewrite column0. cbn [bind rows ncols]. pose proof (idx_range argsort (map fst g) S) as F. rewrite map_length in F.
  rewrite (take_ok _ _ [FNaN; FNaN]) by (unfold as_rows; now rewrite map_length). cbn [bind].
  assert (R : map (fun k => nth k (as_rows g) [FNaN; FNaN]) (argsort (map fst g)) = as_rows (reorder (argsort (map fst g)) g)).
  { unfold as_rows, reorder. rewrite map_map. apply map_ext. intros k. change [FNaN; FNaN] with ((fun p : fl * fl => [fst p; snd p]) (FNaN, FNaN)). now rewrite map_nth. }
  rewrite R. set (q := reorder _ g). unfold remove_doubles_matrix. rewrite column0. cbn [bind]. destruct (check_sorted (map fst q)); [|reflexivity]. cbn [bind]. rewrite mask_eq. cbn [bind rows ncols].
  unfold as_rows at 1. rewrite select_flags. cbn [bind fst snd]. rewrite to_matrix by now rewrite !map_length. now rewrite combine_map.
Qed.
Lemma to_from x y m : xy_to_matrix x y = Ok m -> matrix_to_xy m = Ok (x, y).
Proof.
  intros H. destruct (Nat.eq_dec (length x) (length y)) as [L|L].
  - rewrite to_matrix in H by assumption. injection H as <-. unfold matrix_to_xy. rewrite column0, column1. cbn [bind]. now rewrite combine_fst, combine_snd.
  - unfold xy_to_matrix in H. apply Nat.eqb_neq in L. rewrite L in H. discriminate.
Qed.
Lemma matrix_cols argsort m : ncols m <> 2%nat -> clean_matrix argsort m = Err AssertionError.
Proof. intros H. unfold clean_matrix. apply Nat.eqb_neq in H. now rewrite H. Qed.

(** ** Two sorting algorithms *)
Lemma increasing_unique (l l' : list fl) : increasing l -> increasing l' -> Forall number l -> (forall a, In a l <-> In a l') -> l = l'.
Proof.
  intros S S' N I. assert (ND : forall l, increasing l -> NoDup l). { clear. induction 1 as [|a l S IH H]; constructor; auto. intros K. rewrite Forall_forall in H. specialize (H a K). rewrite flt_irrefl in H. discriminate. }
  apply (sorted_unique (fun a b => flt a b = true)); auto.
  - intros a b _ _ A B. pose proof (flt_le_trans _ _ _ A (flt_fle _ _ B)) as F. rewrite flt_irrefl in F. discriminate.
  - apply NoDup_Permutation; auto.
Qed.
Lemma two_sortings s1 s2 x y : sorting s1 -> sorting s2 ->
  match clean_xy s1 x y, clean_xy s2 x y with
  | Ok (x1, y1), Ok (x2, y2) => x1 = x2 /\ (NoDup x -> y1 = y2)
  | Err e1, Err e2 => e1 = e2
  | _, _ => False
  end.
Proof.
  intros S1 S2. destruct (Nat.eq_dec (length x) (length y)) as [HL|HL]; [|now rewrite !clean_len by assumption].
  destruct (clean_accepts s1 x y S1 HL) as [A1 [B1 C1]], (clean_accepts s2 x y S2 HL) as [A2 [B2 C2]].
  destruct (clean_xy s1 x y) as [[x1 y1]|e1] eqn:E1.
  - destruct (proj2 A2 (proj1 A1 (ex_intro _ _ eq_refl))) as [[x2 y2] E2]. rewrite E2.
    destruct (clean_props s1 x y x1 y1 S1 E1) as [L1 [N1 [M1 [I1 [P1 Q1]]]]], (clean_props s2 x y x2 y2 S2 E2) as [L2 [N2 [M2 [I2 [P2 Q2]]]]].
    assert (PT : forall (x y : list fl) a, length x = length y -> In a x -> exists b, point x y a b).
    { intros u v a L Ha. apply In_nth_error in Ha. destruct Ha as [k K]. destruct (nth_error v k) as [b|] eqn:V; [exists b, k; auto|]. apply nth_error_None in V. assert (nth_error u k <> None) by congruence. apply nth_error_Some in H. lia. }
    assert (PI : forall (x y : list fl) a b, point x y a b -> In a x /\ In b y) by (intros u v a b [k [K1 K2]]; split; eapply nth_error_In; eauto).
    assert (X : x1 = x2).
    { apply increasing_unique; auto. rewrite Forall_forall in N1, M1, N2, M2. intros a. split; intros Ha.
      - destruct (PT x1 y1 a L1 Ha) as [b Hb]. destruct (Q2 a b (P1 _ _ Hb)) as [b' Hb']; [now apply N1|apply M1; exact (proj2 (PI _ _ _ _ Hb))|]. exact (proj1 (PI _ _ _ _ Hb')).
      - destruct (PT x2 y2 a L2 Ha) as [b Hb]. destruct (Q1 a b (P2 _ _ Hb)) as [b' Hb']; [now apply N2|apply M2; exact (proj2 (PI _ _ _ _ Hb))|]. exact (proj1 (PI _ _ _ _ Hb')). }
    split; [exact X|]. intros ND. subst x2. apply (list_ext _ _ FNaN); [lia|]. intros k Hk.
    assert (A : point x1 y1 (nth k x1 FNaN) (nth k y1 FNaN)) by (exists k; split; apply nth_error_nth'; lia).
    assert (B : point x1 y2 (nth k x1 FNaN) (nth k y2 FNaN)) by (exists k; split; apply nth_error_nth'; lia).
    apply P1 in A. apply P2 in B. destruct A as [i [A1' A2']], B as [j [B1' B2']]. assert (i = j). { apply (NoDup_nth_error x); [assumption|apply nth_error_Some; congruence|congruence]. } subst j. congruence.
  - destruct (clean_xy s2 x y) as [[x2 y2]|e2] eqn:E2; [destruct (proj2 A1 (proj1 A2 (ex_intro _ _ eq_refl))) as [? K]; discriminate|].
    destruct (Nat.lt_ge_cases (length (good_points x y)) 2) as [G|G].
    + apply B1 in G as G1. apply B2 in G as G2. congruence.
    + assert (D : (points_at x y FPInf >= 2)%nat \/ (points_at x y FNInf >= 2)%nat).
      { destruct (Nat.le_gt_cases 2 (points_at x y FPInf)); [left; lia|]. destruct (Nat.le_gt_cases 2 (points_at x y FNInf)); [right; lia|]. destruct (proj2 A1) as [r K]; [repeat split; lia|discriminate]. }
      specialize (C1 G D). specialize (C2 G D). congruence.
Qed.

(** ** A sorting algorithm exists *)
Fixpoint insert (l : list fl) (k : nat) (idx : list nat) : list nat :=
  match idx with
  | [] => [k]
  | j :: idx' => let a := nth k l FNaN in let b := nth j l FNaN in
      if fisnan b || fle a b then k :: j :: idx' else j :: insert l k idx'
  end.
Definition insertion_argsort (l : list fl) : list nat := fold_right (insert l) [] (seq 0 (length l)).
Lemma insert_perm l k idx : Permutation (insert l k idx) (k :: idx).
Proof. induction idx as [|j idx IH]; [reflexivity|]. simpl. destruct (_ || _); [reflexivity|]. eapply perm_trans; [apply perm_skip; exact IH|]. apply perm_swap. Qed.
Lemma before_trans a b c : before a b -> before b c -> before a c.
Proof. unfold before. intros [H|H] [K|K]; auto; [left; eapply fle_trans; eauto|]. destruct b; discriminate. Qed.
Lemma insert_sorted l k idx : StronglySorted before (map (fun k => nth k l FNaN) idx) -> StronglySorted before (map (fun k => nth k l FNaN) (insert l k idx)).
Proof.
  induction idx as [|j idx IH]; intros S; [simpl; repeat constructor|]. cbn [insert]. destruct (fisnan (nth j l FNaN) || fle (nth k l FNaN) (nth j l FNaN)) eqn:E.
  - cbn [map] in *. assert (B : before (nth k l FNaN) (nth j l FNaN)) by (apply orb_true_iff in E; destruct E; [now right|now left]).
    constructor; [assumption|]. constructor; [assumption|]. apply StronglySorted_inv in S. destruct S as [_ F]. eapply Forall_impl; [|exact F]. intros c Hc. eapply before_trans; eauto.
  - cbn [map] in *. apply StronglySorted_inv in S. destruct S as [S F]. constructor; [auto|].
    apply Forall_forall. intros c Hc. apply in_map_iff in Hc. destruct Hc as [i [<- Hi]]. apply (Permutation_in _ (insert_perm l k idx)) in Hi. destruct Hi as [<-|Hi].
    + apply orb_false_iff in E. destruct E as [E1 E2]. destruct (fisnan (nth k l FNaN)) eqn:N; [now right|]. left. destruct (fle_total (nth k l FNaN) (nth j l FNaN)) as [T|T]; auto; congruence.
    + rewrite Forall_forall in F. apply F. apply in_map_iff. eauto.
Qed.
Lemma insertion_sorts : sorting insertion_argsort.
Proof.
  intros l. unfold insertion_argsort. generalize (seq 0 (length l)). intros s. induction s as [|k s [P S]]; [simpl; repeat constructor|]. cbn [fold_right]. split.
  - eapply perm_trans; [apply insert_perm|]. now apply perm_skip.
  - now apply insert_sorted.
Qed.

(** ** Examples *)
Lemma two_points (a b c d : R) : (a < b)%R -> increasing [FV a; FV b].
Proof. intros H. repeat constructor. now apply flt_spec_v. Qed.
Lemma again_fails argsort : sorting argsort -> clean_xy argsort [FV 1; FV 1] [FV 5; FV 5] = Ok ([FV 1], [FV 5]) /\ clean_xy argsort [FV 1] [FV 5] = Err ValueError.
Proof.
  intros S. split; [|apply (clean_accepts argsort [FV 1] [FV 5] S eq_refl); simpl; lia].
  destruct (clean_accepts argsort [FV 1; FV 1] [FV 5; FV 5] S eq_refl) as [A _]. destruct (proj2 A) as [[x' y'] E]; [unfold points_at; simpl; lia|]. rewrite E.
  destruct (clean_props _ _ _ _ _ S E) as [L [_ [_ [I [P Q]]]]].
  assert (PV : forall a b, point x' y' a b -> a = FV 1 /\ b = FV 5). { intros a b H. apply P in H. destruct H as [[|[|k]] [K1 K2]]; simpl in *; try (destruct k; discriminate); split; congruence. }
  destruct (Q (FV 1) (FV 5)) as [b' [k [K1 K2]]]; [exists 0%nat; split; reflexivity|reflexivity|reflexivity|].
  destruct x' as [|a [|a' x']]; [destruct k; discriminate| |].
  - destruct y' as [|b [|]]; try discriminate. destruct (PV a b) as [-> ->]; [exists 0%nat; split; reflexivity|]. reflexivity.
  - destruct y' as [|b [|c y']]; try discriminate. destruct (PV a b) as [-> _]; [exists 0%nat; split; reflexivity|]. destruct (PV a' c) as [-> _]; [exists 1%nat; split; reflexivity|].
    inversion I as [|? ? ? F]; subst. inversion F; subst. rewrite flt_irrefl in *. discriminate.
Qed.
Lemma clean_twice argsort argsort' x y x' y' : sorting argsort -> sorting argsort' -> clean_xy argsort x y = Ok (x', y') -> (2 <= length x')%nat ->
  clean_xy argsort' x' y' = Ok (x', y').
Proof. intros S S' E L. destruct (clean_props _ _ _ _ _ S E) as [L' [N [M [I _]]]]. now apply clean_clean. Qed.
Lemma infinite_fails argsort : sorting argsort -> clean_xy argsort [FV 0; FPInf; FPInf] [FV 0; FV 1; FV 1] = Err AssertionError.
Proof. intros S. apply (clean_accepts argsort [FV 0; FPInf; FPInf] [FV 0; FV 1; FV 1] S eq_refl); [simpl; lia|]. left. unfold points_at. simpl. lia. Qed.

(** ** Another column *)
Lemma other_column argsort : sorting argsort -> let m := {| ncols := 2; rows := [[FV 2; FV 1]; [FV 1; FV 2]] |} in
  sort_matrix argsort m 1 = Ok m /\ remove_doubles_matrix m 1 true = Err AssertionError /\ remove_doubles_matrix m 1 false = Ok m.
Proof.
  intros S m. assert (C1 : column m 1 = Ok [FV 1; FV 2]) by reflexivity. split; [|split].
  - unfold sort_matrix. rewrite C1. cbn [bind]. rewrite argsort_id; [reflexivity|assumption|repeat constructor|]. apply (two_points 1 2 0 0). lra.
  - unfold remove_doubles_matrix. assert (C0 : column m 0 = Ok [FV 2; FV 1]) by reflexivity. rewrite C0. cbn [bind].
    destruct (check_eq [FV 2; FV 1]) as [_ K]. rewrite K; [reflexivity|]. simpl. intros [X _]. apply fle_v in X. lra.
  - unfold remove_doubles_matrix. cbn [bind]. rewrite C1. cbn [bind]. rewrite mask_eq. cbn [bind flags flags_from feq]. rewrite Reqb_f by lra. reflexivity.
Qed.

Lemma sort_dedupe argsort m c j m1 m2 : sorting argsort -> pyidx (ncols m) c = Some j -> Forall (fun r => number (nth j r FNaN)) (rows m) ->
  sort_matrix argsort m c = Ok m1 -> remove_doubles_matrix m1 c false = Ok m2 ->
  increasing (map (fun r => nth j r FNaN) (rows m2)) /\ (forall r, In r (rows m2) -> In r (rows m)).
Proof.
  intros S E N E1 E2. unfold sort_matrix, column in E1. rewrite E in E1. cbn [bind] in E1. set (cv := fun r : list fl => nth j r FNaN) in *.
  pose proof (idx_range argsort (map cv (rows m)) S) as F. rewrite map_length in F. rewrite (take_ok _ _ []) in E1 by assumption. cbn [bind] in E1. injection E1 as <-.
  set (idx := argsort (map cv (rows m))) in *. set (rs := map (fun k => nth k (rows m) []) idx) in *.
  assert (CV : map cv rs = map (fun k => nth k (map cv (rows m)) FNaN) idx).
  { unfold rs. rewrite map_map. apply map_ext_in. intros k Hk. rewrite Forall_forall in F. specialize (F k Hk). rewrite nth_indep with (d' := cv []) (l := map cv (rows m)) by now rewrite map_length. now rewrite map_nth. }
  assert (P : Permutation rs (rows m)). { unfold rs. eapply Permutation_trans; [apply Permutation_map; apply (S (map cv (rows m)))|]. rewrite map_length, map_nth_seq. apply Permutation_refl. }
  assert (N' : Forall (fun r => number (cv r)) rs) by (eapply Permutation_Forall; [apply Permutation_sym; exact P|exact N]).
  assert (SS : StronglySorted (fun a b => fle a b = true) (map cv rs)). { apply sorted_fle; [now rewrite Forall_map|]. rewrite CV. apply (S (map cv (rows m))). }
  unfold remove_doubles_matrix, column in E2. cbn [bind ncols rows] in E2. rewrite E in E2. cbn [bind] in E2. fold cv in E2. rewrite mask_eq in E2. cbn [bind] in E2.
  set (q := map (fun r => (cv r, r)) rs). assert (Q1 : map fst q = map cv rs) by (unfold q; rewrite map_map; reflexivity). assert (Q2 : map snd q = rs) by (unfold q; rewrite map_map; apply map_id).
  rewrite <- Q1, <- Q2, select_flags in E2. cbn [bind] in E2. injection E2 as <-. cbn [rows].
  assert (IN : forall p, In p (dd q) -> In p q). { destruct q as [|p0 q0]; [auto|]. intros p [->|K]; [now left|right; eapply dd_sub; eauto]. }
  split.
  - rewrite map_map. assert (M : map (fun p => cv (snd p)) (dd q) = map fst (dd q)).
    { apply map_ext_in. intros p Hp. apply IN in Hp. unfold q in Hp. apply in_map_iff in Hp. destruct Hp as [r [<- _]]. reflexivity. }
    change (increasing (map (fun p => cv (snd p)) (dd q))). rewrite M. clear M. assert (NQ : Forall (fun p : fl * list fl => number (fst p)) q) by (unfold q; rewrite Forall_map; exact N').
    rewrite <- Q1 in SS. destruct q as [|p0 q0]; [constructor|]. inversion NQ; subst. cbn [dd map]. apply dd_sorted; assumption.
  - intros r Hr. apply in_map_iff in Hr. destruct Hr as [p [<- Hp]]. apply IN in Hp. eapply Permutation_in; [exact P|]. rewrite <- Q2. now apply in_map.
Qed.
