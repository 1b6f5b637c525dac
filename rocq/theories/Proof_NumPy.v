(** Lemmas about sums over an index range and the list operations of NumPy.v. *)
From Coq Require Import List ZArith Lia Bool Arith Reals Lra.
From Verif Require Import Base NumPy.
Import ListNotations.
Open Scope R_scope.

(** ** Sums *)
Fixpoint nsum (n : nat) (f : nat -> R) : R := match n with O => 0 | S m => nsum m f + f m end.

Lemma nsum_ext n f g : (forall i, (i < n)%nat -> f i = g i) -> nsum n f = nsum n g.
Proof. induction n; intros H; simpl; [reflexivity|]. rewrite IHn by (intros; apply H; lia). now rewrite H by lia. Qed.
Lemma nsum_plus n f g : nsum n (fun i => f i + g i) = nsum n f + nsum n g.
Proof. induction n; simpl; [ring|rewrite IHn; ring]. Qed.
Lemma nsum_scal n c f : nsum n (fun i => c * f i) = c * nsum n f.
Proof. induction n; simpl; [ring|rewrite IHn; ring]. Qed.
Lemma nsum_0 n f : (forall i, (i < n)%nat -> f i = 0) -> nsum n f = 0.
Proof. intros H. rewrite (nsum_ext n f (fun _ => 0 * 0)) by (intros; rewrite H by assumption; ring). rewrite nsum_scal. ring. Qed.
Lemma nsum_le n f g : (forall i, (i < n)%nat -> f i <= g i) -> nsum n f <= nsum n g.
Proof. induction n; intros H; simpl; [lra|]. apply Rplus_le_compat; [apply IHn; intros; apply H; lia|apply H; lia]. Qed.
Lemma nsum_pos n f : (0 < n)%nat -> (forall i, (i < n)%nat -> 0 < f i) -> 0 < nsum n f.
Proof.
  intros Hn H. destruct n; [lia|]. simpl. assert (0 <= nsum n f).
  { rewrite <- (nsum_0 n (fun _ => 0)) by reflexivity. apply nsum_le. intros. left. apply H. lia. }
  specialize (H n). assert (0 < f n) by (apply H; lia). lra.
Qed.
Lemma nsum_nonneg n f : (forall i, (i < n)%nat -> 0 <= f i) -> 0 <= nsum n f.
Proof. intros H. rewrite <- (nsum_0 n (fun _ => 0)) by reflexivity. now apply nsum_le. Qed.
Lemma nsum_app a b f : nsum (a + b) f = nsum a f + nsum b (fun i => f (a + i)%nat).
Proof. induction b; simpl; [rewrite Nat.add_0_r; ring|]. rewrite Nat.add_succ_r. simpl. rewrite IHb. ring. Qed.
Lemma nsum_rev n f : nsum n (fun i => f (n - 1 - i)%nat) = nsum n f.
Proof.
  induction n; [reflexivity|]. rewrite <- (Nat.add_1_l n) at 1. rewrite nsum_app. simpl nsum at 1. rewrite Nat.sub_0_r.
  rewrite (nsum_ext n (fun i => f (S n - 1 - (1 + i))%nat) (fun i => f (n - 1 - i)%nat)) by (intros; f_equal; lia). rewrite IHn. simpl. rewrite Nat.sub_0_r. ring.
Qed.
Lemma nsum_single n f j : (j < n)%nat -> (forall i, (i < n)%nat -> i <> j -> f i = 0) -> nsum n f = f j.
Proof.
  induction n; intros Hj H; [lia|]. simpl. destruct (Nat.eq_dec j n) as [->|N].
  - rewrite nsum_0; [ring|]. intros i Hi. apply H; lia.
  - rewrite IHn; [|lia|intros; apply H; lia]. rewrite (H n) by lia. ring.
Qed.
Lemma nsum_swap n m f : nsum n (fun i => nsum m (fun j => f i j)) = nsum m (fun j => nsum n (fun i => f i j)).
Proof.
  induction n; simpl; [now rewrite nsum_0|]. rewrite IHn, <- nsum_plus. reflexivity.
Qed.

Lemma lsum_acc l a : fold_left Rplus l a = a + fold_left Rplus l 0.
Proof. revert a; induction l as [|x l IH]; intros a; simpl; [ring|]. rewrite IH, (IH (0 + x)). ring. Qed.
Lemma lsum_cons x l : lsum (x :: l) = x + lsum l.
Proof. unfold lsum. simpl. rewrite lsum_acc. ring. Qed.
Lemma lsum_app l l' : lsum (l ++ l') = lsum l + lsum l'.
Proof. induction l; [unfold lsum; simpl; ring|]. rewrite <- app_comm_cons, !lsum_cons, IHl. ring. Qed.
Lemma lsum_map_seq n f : lsum (map f (seq 0 n)) = nsum n f.
Proof. induction n; [reflexivity|]. rewrite seq_S, map_app, lsum_app, IHn. simpl. unfold lsum. simpl. ring. Qed.
Lemma map_nth_seq {A} (l : list A) d : map (fun i => nth i l d) (seq 0 (length l)) = l.
Proof. induction l as [|x l IH]; [reflexivity|]. simpl. f_equal. rewrite <- seq_shift, map_map. exact IH. Qed.
Lemma lsum_nth l : lsum l = nsum (length l) (fun i => nth i l 0).
Proof. rewrite <- lsum_map_seq. now rewrite map_nth_seq. Qed.

(** ** Lists *)
Lemma nth_map_seq {A} (f : nat -> A) n k d : (k < n)%nat -> nth k (map f (seq 0 n)) d = f k.
Proof. intros H. rewrite nth_indep with (d' := f 0%nat) by now rewrite map_length, seq_length. rewrite map_nth, seq_nth by assumption. reflexivity. Qed.
Lemma list_ext {A} (l l' : list A) d : length l = length l' -> (forall i, (i < length l)%nat -> nth i l d = nth i l' d) -> l = l'.
Proof. intros H K. now apply (nth_ext l l' d d). Qed.
Lemma nth_firstn {A} (l : list A) n k d : (k < n)%nat -> nth k (firstn n l) d = nth k l d.
Proof. revert l k; induction n; intros l k H; [lia|]. destruct l, k; simpl; auto. apply IHn. lia. Qed.
Lemma nth_skipn {A} (l : list A) n k d : nth k (skipn n l) d = nth (n + k) l d.
Proof. revert l; induction n; intros l; [reflexivity|]. destruct l; simpl; [now destruct k|apply IHn]. Qed.
Lemma nth_repeat' {A} (x : A) n k d : (k < n)%nat -> nth k (repeat x n) d = x.
Proof. revert k; induction n; intros k H; [lia|]. destruct k; simpl; [reflexivity|]. apply IHn. lia. Qed.

Lemma zipwith_length {A B C} (f : A -> B -> C) a b : length a = length b -> length (zipwith f a b) = length a.
Proof. revert b; induction a; destruct b; simpl; intros H; try lia. f_equal. apply IHa. lia. Qed.
Lemma nth_zipwith {A B C} (f : A -> B -> C) a b k da db dc : length a = length b -> (k < length a)%nat -> nth k (zipwith f a b) dc = f (nth k a da) (nth k b db).
Proof. revert b k; induction a as [|x a IH]; intros b k H Hk; simpl in *; [lia|]. destruct b as [|y b]; [discriminate|]. destruct k; [reflexivity|]. simpl. apply IH; simpl in H; lia. Qed.
Lemma bcast_eq {A B C} (f : A -> B -> C) a b : length a = length b -> bcast f a b = Ok (zipwith f a b).
Proof. intros H. unfold bcast. now rewrite H, Nat.eqb_refl. Qed.

Lemma pyslice_length {A} (l : list A) lo hi : length (pyslice l lo hi) =
  ((match hi with Some k => slice_bound (length l) k | None => length l end) - (match lo with Some k => slice_bound (length l) k | None => 0%nat end))%nat.
Proof.
  unfold pyslice. rewrite firstn_length, skipn_length. assert (forall k, (slice_bound (length l) k <= length l)%nat) by (intros; unfold slice_bound; lia).
  destruct lo as [k|], hi as [k'|]; try pose proof (H k); try pose proof (H k'); lia.
Qed.
Lemma nth_pyslice {A} (l : list A) lo hi k d : (k < length (pyslice l lo hi))%nat ->
  nth k (pyslice l lo hi) d = nth ((match lo with Some k => slice_bound (length l) k | None => 0%nat end) + k) l d.
Proof. intros H. rewrite pyslice_length in H. unfold pyslice. rewrite nth_firstn by assumption. apply nth_skipn. Qed.
Lemma slice_pos n k : (0 <= k)%Z -> slice_bound n k = Nat.min n (Z.to_nat k).
Proof. intros H. unfold slice_bound. destruct (Z.ltb_spec k 0); lia. Qed.
Lemma slice_neg n k : (k < 0)%Z -> slice_bound n k = (n - Z.to_nat (- k))%nat.
Proof. intros H. unfold slice_bound. destruct (Z.ltb_spec k 0); lia. Qed.

Lemma pyget_nth {A} (l : list A) k d : (- Z.of_nat (length l) <= k < Z.of_nat (length l))%Z ->
  pyget l k = Ok (nth (Z.to_nat (if (k <? 0)%Z then k + Z.of_nat (length l) else k)) l d).
Proof.
  intros H. unfold pyget. destruct (Z.ltb_spec k 0).
  - rewrite pyidx_neg by lia. rewrite (nth_error_nth' l d) by lia. reflexivity.
  - rewrite pyidx_nonneg by lia. rewrite (nth_error_nth' l d) by lia. reflexivity.
Qed.
Lemma pyget_err {A} (l : list A) k : (k < - Z.of_nat (length l) \/ Z.of_nat (length l) <= k)%Z -> pyget l k = Err IndexError.
Proof. intros H. unfold pyget. apply pyidx_none in H. now rewrite H. Qed.
Lemma pyset_nth {A} (l : list A) k x : (- Z.of_nat (length l) <= k < Z.of_nat (length l))%Z ->
  pyset l k x = Ok (list_set l (Z.to_nat (if (k <? 0)%Z then k + Z.of_nat (length l) else k)) x).
Proof. intros H. unfold pyset. destruct (Z.ltb_spec k 0); [rewrite pyidx_neg by lia|rewrite pyidx_nonneg by lia]; reflexivity. Qed.
Lemma nth_list_set {A} (l : list A) j x k d : (j < length l)%nat -> nth k (list_set l j x) d = if (k =? j)%nat then x else nth k l d.
Proof.
  revert j k; induction l as [|y l IH]; intros j k H; [simpl in H; lia|]. destruct j, k; simpl; try reflexivity. apply IH. simpl in H; lia.
Qed.

Lemma pyslice_rev_map {A} (l : list A) start stop d : (-1 <= rev_bound (length l) stop)%Z -> (rev_bound (length l) start < Z.of_nat (length l))%Z ->
  pyslice_rev l start stop = map (fun k => nth (Z.to_nat (rev_bound (length l) start) - k) l d) (seq 0 (Z.to_nat (rev_bound (length l) start - rev_bound (length l) stop))).
Proof.
  intros H1 H2. unfold pyslice_rev. set (s := rev_bound (length l) start) in *. set (e := rev_bound (length l) stop) in *.
  assert (G : forall ks, (forall k, In k ks -> (Z.of_nat k < s - e)%Z) ->
    flat_map (fun k => match nth_error l (Z.to_nat (s - Z.of_nat k)) with Some x => [x] | None => [] end) ks = map (fun k => nth (Z.to_nat s - k) l d) ks).
  { induction ks as [|k ks IH]; intros H; [reflexivity|]. cbn [flat_map map]. assert (Hk := H k (or_introl eq_refl)).
    rewrite (nth_error_nth' l d) by lia. cbn [app]. f_equal; [f_equal; lia|]. apply IH. intros; apply H; now right. }
  apply G. intros k Hk. apply in_seq in Hk. lia.
Qed.

Lemma Zceil_spec x : IZR (Zceil x) - 1 < x <= IZR (Zceil x).
Proof. unfold Zceil. rewrite opp_IZR. pose proof (base_Int_part (- x)). lra. Qed.
Lemma Zceil_unique x n : IZR n - 1 < x <= IZR n -> Zceil x = n.
Proof.
  intros H. pose proof (Zceil_spec x). assert (A : IZR (Zceil x) < IZR (n + 1)) by (rewrite plus_IZR; lra).
  assert (B : IZR n < IZR (Zceil x + 1)) by (rewrite plus_IZR; lra). apply lt_IZR in A, B. lia.
Qed.
