(** Common definitions: Python exceptions as values, [range], loops, and
    Python/NumPy index arithmetic.  Nothing here is specific to QMix. *)
From Coq Require Import List ZArith Lia Bool Arith FinFun.
Import ListNotations.
Open Scope Z_scope.

(** The exception classes that the modelled code can raise.  [OutOfBounds] is
    not a Python exception: it marks an access outside an array in
    numba-compiled code, which performs no bounds check.  [NotModelled] marks the
    inputs on which a model gives up (said at each place). *)
Inductive pyerr :=
| AssertionError | IndexError | ValueError | TypeError | KeyError
| AttributeError | NameError | ZeroDivisionError | LinAlgError | OSError | OutOfBounds | NotModelled.

Inductive res (A : Type) : Type :=
| Ok (a : A)
| Err (e : pyerr).
Arguments Ok {A} a.
Arguments Err {A} e.

Definition bind {A B} (m : res A) (k : A -> res B) : res B :=
  match m with Ok a => k a | Err e => Err e end.
Notation "'let*' x ':=' m 'in' k" := (bind m (fun x => k))
  (at level 200, x pattern, m at level 100, k at level 200, right associativity).

Definition rmap {A B} (f : A -> B) (m : res A) : res B :=
  match m with Ok a => Ok (f a) | Err e => Err e end.

Definition guard (b : bool) (e : pyerr) : res unit := if b then Ok tt else Err e.

Definition is_ok {A} (m : res A) : bool := match m with Ok _ => true | Err _ => false end.

(** Python [range(lo, hi)]. *)
Definition zrange (lo hi : Z) : list Z :=
  map (fun i => lo + Z.of_nat i) (seq 0 (Z.to_nat (hi - lo))).

(** Python [for x in l: acc = body(x, acc)], stopping at the first exception. *)
Fixpoint foreach {A B} (l : list A) (body : A -> B -> res B) (acc : B) : res B :=
  match l with
  | [] => Ok acc
  | x :: l' => let* acc' := body x acc in foreach l' body acc'
  end.

(** [[f(x) for x in l]] with exceptions. *)
Fixpoint mapM {A B} (f : A -> res B) (l : list A) : res (list B) :=
  match l with
  | [] => Ok []
  | x :: l' => let* y := f x in let* ys := mapM f l' in Ok (y :: ys)
  end.

(** Python index into an axis of length [n]: negative indices count from the end. *)
Definition pyidx (n : nat) (k : Z) : option nat :=
  let j := if k <? 0 then k + Z.of_nat n else k in
  if (0 <=? j) && (j <? Z.of_nat n) then Some (Z.to_nat j) else None.

(** Python list / 1-D array access and update. *)
Definition pyget {A} (l : list A) (k : Z) : res A :=
  match pyidx (length l) k with
  | Some j => match nth_error l j with Some x => Ok x | None => Err IndexError end
  | None => Err IndexError
  end.

Fixpoint list_set {A} (l : list A) (j : nat) (x : A) : list A :=
  match l, j with
  | [], _ => []
  | _ :: l', O => x :: l'
  | y :: l', S j' => y :: list_set l' j' x
  end.

Definition pyset {A} (l : list A) (k : Z) (x : A) : res (list A) :=
  match pyidx (length l) k with
  | Some j => Ok (list_set l j x)
  | None => Err IndexError
  end.

(** A slice bound: negative counts from the end, then clip to [0, n]. *)
Definition slice_bound (n : nat) (k : Z) : nat :=
  let j := if k <? 0 then k + Z.of_nat n else k in
  Z.to_nat (Z.min (Z.of_nat n) (Z.max 0 j)).

(** [l[lo:hi]] (step 1); [None] is an omitted bound. *)
Definition pyslice {A} (l : list A) (lo hi : option Z) : list A :=
  let n := length l in
  let a := match lo with Some k => slice_bound n k | None => O end in
  let b := match hi with Some k => slice_bound n k | None => n end in
  firstn (b - a) (skipn a l).

(* ------------------------------------------------------------------ *)
(** Basic lemmas. *)

Lemma bind_ok {A B} (m : res A) (k : A -> res B) b :
  bind m k = Ok b -> exists a, m = Ok a /\ k a = Ok b.
Proof. destruct m; simpl; [eauto|discriminate]. Qed.

Lemma in_zrange lo hi k : In k (zrange lo hi) <-> lo <= k < hi.
Proof.
  unfold zrange. rewrite in_map_iff. split.
  - intros [i [<- Hi]]. apply in_seq in Hi. lia.
  - intros H. exists (Z.to_nat (k - lo)). split; [lia|]. apply in_seq. lia.
Qed.

Lemma zrange_NoDup lo hi : NoDup (zrange lo hi).
Proof.
  unfold zrange. apply Injective_map_NoDup; [|apply seq_NoDup].
  intros a b H. lia.
Qed.

Lemma zrange_length lo hi : length (zrange lo hi) = Z.to_nat (hi - lo).
Proof. unfold zrange. now rewrite map_length, seq_length. Qed.

Lemma zrange_nil lo hi : hi <= lo -> zrange lo hi = [].
Proof. intros H. unfold zrange. replace (Z.to_nat (hi - lo)) with O by lia. reflexivity. Qed.

Lemma zrange_cons lo hi : lo < hi -> zrange lo hi = lo :: zrange (lo + 1) hi.
Proof.
  intros H. unfold zrange. replace (Z.to_nat (hi - lo)) with (S (Z.to_nat (hi - (lo + 1)))) by lia.
  simpl. f_equal; [lia|]. rewrite <- seq_shift, map_map. apply map_ext. intros; lia.
Qed.

Lemma zrange_snoc lo hi : lo <= hi -> zrange lo (hi + 1) = zrange lo hi ++ [hi].
Proof.
  intros H. unfold zrange.
  replace (Z.to_nat (hi + 1 - lo)) with (Z.to_nat (hi - lo) + 1)%nat by lia.
  rewrite seq_app, map_app. simpl. repeat f_equal. lia.
Qed.

Lemma pyidx_some n k j : pyidx n k = Some j ->
  (0 <= k < Z.of_nat n /\ Z.of_nat j = k) \/ (- Z.of_nat n <= k < 0 /\ Z.of_nat j = k + Z.of_nat n).
Proof.
  unfold pyidx. destruct (Z.ltb_spec k 0).
  - destruct (Z.leb_spec 0 (k + Z.of_nat n)), (Z.ltb_spec (k + Z.of_nat n) (Z.of_nat n)); simpl; try discriminate.
    intros [= <-]. right. lia.
  - destruct (Z.leb_spec 0 k), (Z.ltb_spec k (Z.of_nat n)); simpl; try discriminate.
    intros [= <-]. left. lia.
Qed.

Lemma pyidx_nonneg n k : 0 <= k < Z.of_nat n -> pyidx n k = Some (Z.to_nat k).
Proof.
  intros H. unfold pyidx. destruct (Z.ltb_spec k 0); [lia|].
  destruct (Z.leb_spec 0 k), (Z.ltb_spec k (Z.of_nat n)); simpl; lia || reflexivity.
Qed.

Lemma pyidx_neg n k : - Z.of_nat n <= k < 0 -> pyidx n k = Some (Z.to_nat (k + Z.of_nat n)).
Proof.
  intros H. unfold pyidx. destruct (Z.ltb_spec k 0); [|lia].
  destruct (Z.leb_spec 0 (k + Z.of_nat n)), (Z.ltb_spec (k + Z.of_nat n) (Z.of_nat n)); simpl; lia || reflexivity.
Qed.

Lemma pyidx_none n k : pyidx n k = None <-> k < - Z.of_nat n \/ Z.of_nat n <= k.
Proof.
  unfold pyidx. destruct (Z.ltb_spec k 0).
  - destruct (Z.leb_spec 0 (k + Z.of_nat n)), (Z.ltb_spec (k + Z.of_nat n) (Z.of_nat n)); simpl;
      split; intros; try discriminate; try lia; reflexivity.
  - destruct (Z.leb_spec 0 k), (Z.ltb_spec k (Z.of_nat n)); simpl;
      split; intros; try discriminate; try lia; reflexivity.
Qed.

(** The cell that index [k] with [|k| <= b] addresses in an axis of [2N+1] cells. *)
Definition wrapk (N : nat) (k : Z) : nat :=
  Z.to_nat (if k <? 0 then k + (2 * Z.of_nat N + 1) else k).

Lemma pyidx_sym N k : - Z.of_nat N <= k <= Z.of_nat N -> pyidx (2 * N + 1) k = Some (wrapk N k).
Proof.
  intros H. unfold wrapk. destruct (Z.ltb_spec k 0).
  - rewrite pyidx_neg by lia. f_equal. f_equal. lia.
  - rewrite pyidx_nonneg by lia. reflexivity.
Qed.

Lemma wrapk_inj N k l : - Z.of_nat N <= k <= Z.of_nat N -> - Z.of_nat N <= l <= Z.of_nat N ->
  wrapk N k = wrapk N l -> k = l.
Proof. unfold wrapk. destruct (Z.ltb_spec k 0), (Z.ltb_spec l 0); lia. Qed.

Lemma wrapk_lt N k : - Z.of_nat N <= k <= Z.of_nat N -> (wrapk N k < 2 * N + 1)%nat.
Proof. unfold wrapk. destruct (Z.ltb_spec k 0); lia. Qed.

(** A loop whose body never raises and preserves a relation. *)
Lemma foreach_inv {A B} (P : list A -> B -> Prop) (body : A -> B -> res B) :
  forall l pre acc,
  P pre acc ->
  (forall pre x acc, In x l -> P pre acc -> exists acc', body x acc = Ok acc' /\ P (pre ++ [x]) acc') ->
  exists acc', foreach l body acc = Ok acc' /\ P (pre ++ l) acc'.
Proof.
  induction l as [|x l IH]; intros pre acc HP Hb; simpl.
  - exists acc. rewrite app_nil_r. auto.
  - destruct (Hb pre x acc (or_introl eq_refl) HP) as [acc' [E HP']].
    rewrite E. simpl.
    destruct (IH (pre ++ [x]) acc' HP') as [acc'' [E' HP'']].
    + intros pre' y a Hy. apply Hb. now right.
    + exists acc''. split; [exact E'|]. now rewrite <- app_assoc in HP''.
Qed.

Lemma foreach_app {A B} (l1 l2 : list A) (body : A -> B -> res B) acc :
  foreach (l1 ++ l2) body acc = let* a := foreach l1 body acc in foreach l2 body a.
Proof.
  revert acc; induction l1 as [|x l1 IH]; intros acc; simpl; [reflexivity|].
  destruct (body x acc); simpl; [apply IH|reflexivity].
Qed.

Lemma foreach_ext {A B} (l : list A) (f g : A -> B -> res B) :
  (forall x acc, In x l -> f x acc = g x acc) -> forall acc, foreach l f acc = foreach l g acc.
Proof.
  induction l as [|x l IH]; intros H acc; simpl; [reflexivity|].
  rewrite H by now left. destruct (g x acc); simpl; [|reflexivity].
  apply IH. intros; apply H; now right.
Qed.

Lemma mapM_ok {A B} (f : A -> res B) (g : A -> B) l :
  (forall x, In x l -> f x = Ok (g x)) -> mapM f l = Ok (map g l).
Proof.
  induction l as [|x l IH]; intros H; simpl; [reflexivity|].
  rewrite (H x) by now left. simpl. rewrite IH; [reflexivity|]. intros; apply H; now right.
Qed.

Lemma list_set_length {A} (l : list A) j x : length (list_set l j x) = length l.
Proof. revert j; induction l; destruct j; simpl; auto. Qed.

Lemma nth_error_list_set {A} (l : list A) j x k :
  nth_error (list_set l j x) k =
  if (k =? j)%nat then (if (k <? length l)%nat then Some x else None) else nth_error l k.
Proof.
  revert j k; induction l as [|y l IH]; intros j k.
  - destruct j, k; simpl; try reflexivity. now destruct (k =? j)%nat.
  - destruct j, k; simpl; try reflexivity. rewrite IH.
    change (S k <? S (length l))%nat with (k <? length l)%nat.
    change (S k =? S j)%nat with (k =? j)%nat. reflexivity.
Qed.
