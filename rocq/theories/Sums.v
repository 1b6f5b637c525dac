(** Finite sums of complex numbers over lists, and symmetric index ranges. *)
From Coq Require Import List ZArith Lia Bool Arith Reals Lra Permutation.
From Coquelicot Require Import Complex.
From Verif Require Import Base.
Import ListNotations.
Open Scope Z_scope.

Notation "0c" := (RtoC 0).
Notation "1c" := (RtoC 1).

(** [csum l f] is the sum of [f x] for [x] in [l]. *)
Fixpoint csum {A} (l : list A) (f : A -> C) : C :=
  match l with
  | [] => RtoC 0
  | x :: l' => Cplus (f x) (csum l' f)
  end.

(** The integers from [-b] to [b]. *)
Definition sym (b : nat) : list Z := zrange (- Z.of_nat b) (Z.of_nat b + 1).

Lemma in_sym b k : In k (sym b) <-> - Z.of_nat b <= k <= Z.of_nat b.
Proof. unfold sym. rewrite in_zrange. lia. Qed.

Lemma sym_NoDup b : NoDup (sym b).
Proof. apply zrange_NoDup. Qed.

Open Scope C_scope.

Lemma csum_ext {A} (l : list A) f g : (forall x, In x l -> f x = g x) -> csum l f = csum l g.
Proof.
  induction l as [|x l IH]; intros H; simpl; [reflexivity|].
  rewrite (H x) by now left. rewrite IH; [reflexivity|]. intros; apply H; now right.
Qed.

Lemma csum_app {A} (l1 l2 : list A) f : csum (l1 ++ l2) f = csum l1 f + csum l2 f.
Proof. induction l1; simpl; [ring|rewrite IHl1; ring]. Qed.

Lemma csum_plus {A} (l : list A) f g : csum l (fun x => f x + g x) = csum l f + csum l g.
Proof. induction l; simpl; [ring|rewrite IHl; ring]. Qed.

Lemma csum_scal_l {A} (l : list A) c f : csum l (fun x => c * f x) = c * csum l f.
Proof. induction l; simpl; [ring|rewrite IHl; ring]. Qed.

Lemma csum_scal_r {A} (l : list A) c f : csum l (fun x => f x * c) = csum l f * c.
Proof. induction l; simpl; [ring|rewrite IHl; ring]. Qed.

Lemma csum_0 {A} (l : list A) f : (forall x, In x l -> f x = 0c) -> csum l f = 0c.
Proof.
  induction l as [|x l IH]; intros H; simpl; [reflexivity|].
  rewrite H by now left. rewrite IH; [ring|]. intros; apply H; now right.
Qed.

Lemma csum_opp {A} (l : list A) f : csum l (fun x => - f x) = - csum l f.
Proof. induction l; simpl; [ring|rewrite IHl; ring]. Qed.

Lemma Cconj_plus a b : Cconj (a + b) = Cconj a + Cconj b.
Proof. unfold Cconj, Cplus; simpl. f_equal. ring. Qed.
Lemma Cconj_mult a b : Cconj (a * b) = Cconj a * Cconj b.
Proof. unfold Cconj, Cmult; simpl. f_equal; ring. Qed.
Lemma Cconj_opp a : Cconj (- a) = - Cconj a.
Proof. unfold Cconj, Copp; simpl. reflexivity. Qed.
Lemma Cconj_conj a : Cconj (Cconj a) = a.
Proof. destruct a; unfold Cconj; simpl. now rewrite Ropp_involutive. Qed.
Lemma Cconj_R r : Cconj (RtoC r) = RtoC r.
Proof. unfold Cconj, RtoC; simpl. now rewrite Ropp_0. Qed.
Lemma Cconj_minus a b : Cconj (a - b) = Cconj a - Cconj b.
Proof. unfold Cminus. now rewrite Cconj_plus, Cconj_opp. Qed.

Lemma csum_conj {A} (l : list A) f : Cconj (csum l f) = csum l (fun x => Cconj (f x)).
Proof. induction l; simpl; [apply Cconj_R|]. now rewrite Cconj_plus, IHl. Qed.

Lemma csum_perm {A} (l1 l2 : list A) f : Permutation l1 l2 -> csum l1 f = csum l2 f.
Proof. induction 1; simpl; [reflexivity|now rewrite IHPermutation|ring|congruence]. Qed.

Lemma csum_map {A B} (g : A -> B) (l : list A) f : csum (map g l) f = csum l (fun x => f (g x)).
Proof. induction l; simpl; [reflexivity|now rewrite IHl]. Qed.

Lemma csum_swap {A B} (l1 : list A) (l2 : list B) f :
  csum l1 (fun x => csum l2 (f x)) = csum l2 (fun y => csum l1 (fun x => f x y)).
Proof.
  induction l1 as [|x l1 IH]; simpl.
  - symmetry. apply csum_0. reflexivity.
  - rewrite IH. now rewrite csum_plus.
Qed.

(** A bijection of the index set does not change the sum. *)
Lemma csum_reindex {A} (l : list A) (g : A -> A) f :
  NoDup l -> (forall x, In x l -> In (g x) l) ->
  (forall x y, In x l -> In y l -> g x = g y -> x = y) ->
  csum l (fun x => f (g x)) = csum l f.
Proof.
  intros ND Hin Hinj. rewrite <- csum_map. apply csum_perm.
  apply NoDup_Permutation_bis.
  - clear Hin. induction l as [|x l IH]; simpl; constructor.
    + rewrite in_map_iff. intros [y [E Hy]]. inversion ND; subst.
      assert (y = x) by (apply Hinj; simpl; auto). now subst.
    + inversion ND; subst. apply IH; [assumption|]. intros; apply Hinj; simpl; auto.
  - rewrite map_length. apply le_n.
  - intros y. rewrite in_map_iff. intros [x [<- Hx]]. auto.
Qed.

Lemma csum_sym_opp b f : csum (sym b) (fun k => f (- k)%Z) = csum (sym b) f.
Proof.
  apply (csum_reindex (sym b) Z.opp f).
  - apply sym_NoDup.
  - intros x. rewrite !in_sym. lia.
  - intros; lia.
Qed.

Lemma csum_filter {A} (p : A -> bool) (l : list A) f :
  csum (filter p l) f = csum l (fun x => if p x then f x else 0c).
Proof. induction l as [|x l IH]; simpl; [reflexivity|]. destruct (p x); simpl; rewrite IH; ring. Qed.

(** Only one index contributes. *)
Lemma csum_single {A} (l : list A) x f :
  NoDup l -> In x l -> (forall y, In y l -> y <> x -> f y = 0c) -> csum l f = f x.
Proof.
  induction l as [|y l IH]; intros ND Hin H; [destruct Hin|].
  inversion ND as [|? ? Hni ND']; subst. simpl. destruct Hin as [<-|Hin].
  - rewrite csum_0; [ring|]. intros z Hz. apply H; [now right|]. intros ->. contradiction.
  - rewrite (H y); [|now left|intros ->; contradiction]. rewrite IH; [ring|assumption|assumption|].
    intros; apply H; [now right|assumption].
Qed.

(** Two lists with the same "non-zero" members. *)
Lemma csum_support {A} (l1 l2 : list A) f :
  NoDup l1 -> NoDup l2 ->
  (forall x, f x <> 0c -> In x l1 <-> In x l2) -> csum l1 f = csum l2 f.
Proof.
  intros N1 N2 H.
  assert (D : forall z : C, {z = 0c} + {z <> 0c}).
  { intros [a b]. destruct (Req_EM_T a 0); [|right; intros E; inversion E; contradiction].
    destruct (Req_EM_T b 0); [left; subst; reflexivity|right; intros E; inversion E; contradiction]. }
  pose (p := fun x => if D (f x) then false else true).
  assert (F : forall l, csum l f = csum (filter p l) f).
  { intros l. rewrite csum_filter. apply csum_ext. intros x _. unfold p.
    destruct (D (f x)) as [E|]; [now rewrite E|reflexivity]. }
  rewrite (F l1), (F l2). apply csum_perm. apply NoDup_Permutation.
  - now apply NoDup_filter.
  - now apply NoDup_filter.
  - intros x. rewrite !filter_In. unfold p. destruct (D (f x)) as [|N]; [split; intros []; discriminate|].
    rewrite (H x N). reflexivity.
Qed.

Lemma csum_RtoC {A} (l : list A) f : csum l (fun x => RtoC (f x)) = RtoC (fold_right (fun x s => (f x + s)%R) 0%R l).
Proof. induction l; simpl; [reflexivity|]. rewrite IHl. now rewrite RtoC_plus. Qed.

Lemma Re_csum {A} (l : list A) f : Re (csum l f) = fold_right (fun x s => (Re (f x) + s)%R) 0%R l.
Proof. induction l; simpl; [reflexivity|]. now rewrite <- IHl. Qed.
Lemma Im_csum {A} (l : list A) f : Im (csum l f) = fold_right (fun x s => (Im (f x) + s)%R) 0%R l.
Proof. induction l; simpl; [reflexivity|]. now rewrite <- IHl. Qed.

(** A loop that adds one term per index computes the sum. *)
Lemma foreach_sum {A} (l : list A) (body : A -> (nat -> C) -> res (nat -> C)) (t : A -> nat -> C) :
  (forall x acc, In x l -> exists acc', body x acc = Ok acc' /\ forall i, acc' i = acc i + t x i) ->
  forall acc, exists acc', foreach l body acc = Ok acc' /\ forall i, acc' i = acc i + csum l (fun x => t x i).
Proof.
  induction l as [|x l IH]; intros H acc; simpl.
  - exists acc. split; [reflexivity|]. intros; ring.
  - destruct (H x acc (or_introl eq_refl)) as [a1 [E1 H1]]. rewrite E1. simpl.
    destruct (IH (fun y a Hy => H y a (or_intror Hy)) a1) as [a2 [E2 H2]].
    exists a2. split; [exact E2|]. intros i. rewrite H2, H1. ring.
Qed.

(** The same for a pair of accumulators. *)
Lemma foreach_sum2 {A} (l : list A) (body : A -> (nat -> C) * (nat -> C) -> res ((nat -> C) * (nat -> C)))
  (t u : A -> nat -> C) :
  (forall x p m, In x l -> exists p' m', body x (p, m) = Ok (p', m') /\
      (forall i, p' i = p i + t x i) /\ (forall i, m' i = m i + u x i)) ->
  forall p m, exists p' m', foreach l body (p, m) = Ok (p', m') /\
      (forall i, p' i = p i + csum l (fun x => t x i)) /\ (forall i, m' i = m i + csum l (fun x => u x i)).
Proof.
  induction l as [|x l IH]; intros H p m; simpl.
  - exists p, m. split; [reflexivity|]. split; intros; ring.
  - destruct (H x p m (or_introl eq_refl)) as [p1 [m1 [E1 [H1 H1']]]]. rewrite E1. simpl.
    destruct (IH (fun y a b Hy => H y a b (or_intror Hy)) p1 m1) as [p2 [m2 [E2 [H2 H2']]]].
    exists p2, m2. split; [exact E2|]. split; intros i; [rewrite H2, H1|rewrite H2', H1']; ring.
Qed.
