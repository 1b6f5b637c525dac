(** Proofs about the choice of the spline nodes. *)
From Coq Require Import List ZArith Lia Lra Bool Arith Reals String.
From Verif Require Import Base Model_QtCurrent Float NumPy Proof_NumPy Model_MathFn Spec_MathFn Proof_Circuit Proof_IVModels
  Proof_Slope Proof_Filters Proof_KK Spec_RespFn Model_CleanData Model_RespFn.
Import ListNotations.
Open Scope R_scope.
Local Notation length := List.length.

(** ** Sets of indices *)
Lemma set_insert_in z l x : In x (set_insert z l) <-> x = z \/ In x l.
Proof.
  induction l as [|y l IH]; simpl; [intuition|]. destruct (Z.ltb_spec z y); [simpl; intuition|]. destruct (Z.eqb_spec z y) as [->|N]; [simpl; intuition congruence|].
  simpl. rewrite IH. intuition.
Qed.
Lemma sorted_set_in l x : In x (sorted_set l) <-> In x l.
Proof. induction l as [|y l IH]; [reflexivity|]. simpl. rewrite set_insert_in, IH. intuition. Qed.
Fixpoint asc (l : list Z) : Prop := match l with [] => True | a :: l' => (forall b, In b l' -> (a < b)%Z) /\ asc l' end.
Lemma set_insert_asc z l : asc l -> asc (set_insert z l).
Proof.
  induction l as [|y l IH]; [simpl; intuition|]. intros [A B]. simpl. destruct (Z.ltb_spec z y) as [H|H].
  - simpl. split; [|now split]. intros b [<-|Hb]; [lia|]. specialize (A b Hb). lia.
  - destruct (Z.eqb_spec z y) as [->|N]; [now split|]. simpl. split; [|now apply IH]. intros b Hb. apply set_insert_in in Hb. destruct Hb as [->|Hb]; [lia|]. now apply A.
Qed.
Lemma sorted_set_asc l : asc (sorted_set l).
Proof. induction l; simpl; [exact I|]. now apply set_insert_asc. Qed.
Lemma asc_app l1 l2 : asc (l1 ++ l2) -> asc l1 /\ asc l2 /\ forall a b, In a l1 -> In b l2 -> (a < b)%Z.
Proof.
  induction l1 as [|a l1 IH]; intros H; [simpl in *; repeat split; try assumption; intros ? ? []|]. destruct H as [A B]. destruct (IH B) as [C [D E]]. repeat split; try assumption.
  - intros b Hb. apply A. apply in_or_app. now left.
  - intros x b [<-|Hx] Hb; [apply A; apply in_or_app; now right|now apply E].
Qed.
Lemma asc_ascending l : asc l -> ascending l.
Proof.
  intros H l1 a l2 b l3 ->. apply asc_app in H. destruct H as [_ [[H _] _]]. apply H. apply in_or_app. right. now left.
Qed.
Lemma asc_neighbours l a b : asc l -> neighbours l a b -> (a < b)%Z /\ forall c, In c l -> (c <= a \/ b <= c)%Z.
Proof.
  intros H [l1 [l2 ->]]. apply asc_app in H. destruct H as [_ [[H1 [H2 _]] H3]]. split; [apply H1; now left|]. intros c Hc. apply in_app_or in Hc. destruct Hc as [Hc|[<-|[<-|Hc]]].
  - left. specialize (H3 c a Hc (or_introl eq_refl)). lia.
  - lia.
  - lia.
  - right. specialize (H2 c Hc). lia.
Qed.

(** ** Ranges *)
Lemma range3_ok lo hi st : (0 < st)%Z -> exists l, range3 lo hi st = Ok l /\ forall x, In x l <-> (lo <= x < hi /\ (x - lo) mod st = 0)%Z.
Proof.
  intros H. unfold range3. destruct (Z.eqb_spec st 0); [lia|]. eexists. split; [reflexivity|]. intros x. rewrite in_map_iff.
  assert (D := Z.div_mod (lo - hi) st ltac:(lia)). assert (M := Z.mod_pos_bound (lo - hi) st H). set (q := ((lo - hi) / st)%Z) in *. set (r := ((lo - hi) mod st)%Z) in *.
  split.
  - intros [i [<- Hi]]. apply in_seq in Hi. split.
    + split; [nia|]. assert (Z.of_nat i + 1 <= - q)%Z by lia. nia.
    + replace (lo + Z.of_nat i * st - lo)%Z with (Z.of_nat i * st)%Z by ring. apply Z.mod_mul. lia.
  - intros [[A B] C]. apply Z.mod_divide in C; [|lia]. destruct C as [c C]. exists (Z.to_nat c). assert (0 <= c)%Z by nia. split; [lia|]. apply in_seq. split; [lia|].
    assert (c < - q)%Z by nia. lia.
Qed.
Lemma range3_zero lo hi : range3 lo hi 0 = Err ValueError.
Proof. reflexivity. Qed.

(** ** argmin *)
Lemma argmin_from_spec l : forall best pos next (pre : list R), length pre = Z.to_nat next -> (0 <= pos < next)%Z -> nth (Z.to_nat pos) pre 0 = best ->
  (forall j, (j < length pre)%nat -> best <= nth j pre 0) ->
  exists k, argmin_from best pos next l = Z.of_nat k /\ (k < length (pre ++ l))%nat /\ forall j, (j < length (pre ++ l))%nat -> nth k (pre ++ l) 0 <= nth j (pre ++ l) 0.
Proof.
  induction l as [|a l IH]; intros best pos next pre HL Hp Hb Hm.
  - rewrite app_nil_r. simpl. exists (Z.to_nat pos). rewrite Hb. repeat split; [lia|lia|assumption].
  - cbn [argmin_from]. replace (pre ++ a :: l) with ((pre ++ [a]) ++ l) by (now rewrite <- app_assoc).
    assert (HL' : length (pre ++ [a]) = Z.to_nat (next + 1)) by (rewrite app_length; simpl; lia).
    destruct (Rltb_spec a best).
    + apply IH; try assumption; try lia.
      * rewrite app_nth2 by lia. replace (Z.to_nat next - length pre)%nat with 0%nat by lia. reflexivity.
      * intros j Hj. rewrite app_length in Hj. simpl in Hj. destruct (Nat.eq_dec j (length pre)) as [->|N]; [rewrite app_nth2, Nat.sub_diag by lia; simpl; lra|].
        rewrite app_nth1 by lia. specialize (Hm j ltac:(lia)). lra.
    + apply IH; try assumption; try lia.
      * rewrite app_nth1 by lia. assumption.
      * intros j Hj. rewrite app_length in Hj. simpl in Hj. destruct (Nat.eq_dec j (length pre)) as [->|N]; [rewrite app_nth2, Nat.sub_diag by lia; simpl; lra|].
        rewrite app_nth1 by lia. apply Hm. lia.
Qed.
Lemma argmin_spec l : l <> [] -> exists k, argmin l = Ok (Z.of_nat k) /\ (k < length l)%nat /\ forall j, (j < length l)%nat -> nth k l 0 <= nth j l 0.
Proof.
  intros H. destruct l as [|a l]; [congruence|]. simpl. destruct (argmin_from_spec l a 0 1 [a]) as [k [E [K M]]]; try reflexivity; try lia.
  - intros j Hj. simpl in Hj. destruct j; [simpl; lra|lia].
  - rewrite E. exists k. split; [reflexivity|]. now split.
Qed.

(** ** The loop *)
Lemma enum_eq {A} (l : list A) d : List.combine (zrange 0 (Z.of_nat (length l))) l = map (fun k => (Z.of_nat k, nth k l d)) (seq 0 (length l)).
Proof.
  unfold zrange. rewrite Z.sub_0_r, Nat2Z.id. 
  assert (G : forall s, List.combine (map (fun i => (0 + Z.of_nat i)%Z) (seq s (length l))) l = map (fun k => (Z.of_nat k, nth (k - s) l d)) (seq s (length l))).
  { induction l as [|x l IH]; intros s; [reflexivity|]. simpl. rewrite Nat.sub_diag. f_equal. rewrite IH. apply map_ext_in. intros k Hk. apply in_seq in Hk. f_equal.
    replace (k - s)%nat with (S (k - S s)) by lia. reflexivity. }
  rewrite G. apply map_ext. intros. now rewrite Nat.sub_0_r.
Qed.
Lemma foreach_inv {A S} (P : nat -> S -> Prop) (f : nat -> A) (body : A -> S -> res S) n s0 :
  P 0%nat s0 -> (forall k s, (k < n)%nat -> P k s -> exists s', body (f k) s = Ok s' /\ P (k + 1)%nat s') ->
  exists s, foreach (map f (seq 0 n)) body s0 = Ok s /\ P n s.
Proof.
  intros H0 HS. assert (G : forall m a s, (a + m = n)%nat -> P a s -> exists s', foreach (map f (seq a m)) body s = Ok s' /\ P n s').
  { induction m as [|m IH]; intros a s E H; simpl; [exists s; split; [reflexivity|]; now replace n with a by lia|].
    destruct (HS a s ltac:(lia) H) as [s' [-> H']]. cbn [bind]. apply IH; [lia|]. now rewrite Nat.add_1_r in H'. }
  now apply G.
Qed.

Lemma pyget_last {A} (l : list A) d : l <> [] -> pyget l (-1) = Ok (last l d).
Proof.
  intros H. destruct (exists_last H) as [l' [a ->]]. rewrite last_last. rewrite (pyget_nth _ _ d) by (rewrite app_length; cbn [List.length]; lia). change (-1 <? 0)%Z with true. cbv iota. f_equal.
  rewrite app_length. cbn [List.length]. replace (Z.to_nat (-1 + Z.of_nat (length l' + 1))) with (length l') by lia. rewrite app_nth2, Nat.sub_diag by lia. reflexivity.
Qed.
Lemma last_in {A} (l : list A) d : l <> [] -> In (last l d) l.
Proof. intros H. destruct (exists_last H) as [l' [a ->]]. rewrite last_last. apply in_or_app. right. now left. Qed.

Section Loop.
Variables (v cs : list R) (mx : Z).
Let N := length v.
Hypothesis HC : length cs = N.
Hypothesis HN : (1 <= N)%nat.
Definition near (k : nat) : Prop := Rabs (nth k v 0) < 1 / 20 \/ Rabs (nth k v 0 - 1) < 1 / 10 \/ Rabs (nth k v 0 + 1) < 1 / 10 \/ (k < 3)%nat \/ (N - 3 <= k)%nat.
Definition inv (k : nat) (st : list Z * R * R) : Prop :=
  let '(L, _, vl) := st in
  (forall x, In x L -> (0 <= x < Z.of_nat (Nat.max 1 k))%Z) /\
  (exists l, In (Z.of_nat l) L /\ vl = nth l v 0 /\ (l < Nat.max 1 k)%nat) /\
  (forall i, (i < k)%nat -> near i -> In (Z.of_nat i) L) /\
  (forall i, (i < k)%nat -> In (Z.of_nat i) L \/ exists l, (l < i)%nat /\ In (Z.of_nat l) L /\ nth i v 0 - nth l v 0 < 1).
Lemma inv_step k st : (k < N)%nat -> inv k st -> exists st', visit v cs mx (Z.of_nat k, nth k v 0) st = Ok st' /\ inv (k + 1) st'.
Proof.
  intros Hk. destruct st as [[L c] vl]. intros [I1 [[l [I2 [I3 I3']]] [I4 I5]]]. unfold visit.
  rewrite (pyget_nth cs (Z.of_nat k) 0) by lia. destruct (Z.ltb_spec (Z.of_nat k) 0); [lia|]. rewrite Nat2Z.id. cbn [bind]. rewrite (pyget_nth cs (-1) 0) by lia. cbn [bind].
  set (c3 := flt _ _). set (c1 := (Rltb (Rabs _) _ || _ || _)%bool). set (c4 := ((Z.of_nat k <? 3)%Z || _)%bool).
  assert (NE : L <> []) by (intros ->; destruct I2).
  assert (B1 : near k -> (c1 || c4)%bool = true).
  { unfold c1, c4. fold N. intros [G|[G|[G|[G|G]]]].
    - rewrite (Rltb_t _ _ G). reflexivity.
    - rewrite (Rltb_t _ _ G), !orb_true_r. reflexivity.
    - rewrite (Rltb_t _ _ G), !orb_true_r. reflexivity.
    - destruct (Z.ltb_spec (Z.of_nat k) 3); [|lia]. now rewrite !orb_true_r.
    - destruct (Z.ltb_spec (Z.of_nat N - 4) (Z.of_nat k)); [|lia]. now rewrite !orb_true_r. }
  destruct (c1 || Rleb 1 (nth k v 0 - vl) || c3 || c4)%bool eqn:E.
  - rewrite (pyget_last L 0%Z NE). cbn [bind].
    set (L' := if (Z.of_nat k =? last L 0)%Z then L else L ++ [Z.of_nat k]).
    assert (A : forall x, In x L' <-> In x L \/ x = Z.of_nat k).
    { intros x. unfold L'. destruct (Z.eqb_spec (Z.of_nat k) (last L 0%Z)) as [Q|Q].
      - split; [now left|]. intros [G| ->]; [assumption|]. rewrite Q. now apply last_in.
      - rewrite in_app_iff. simpl. intuition. }
    eexists. split; [reflexivity|]. unfold inv. repeat split.
    + apply A in H0. destruct H0 as [H0| ->]; [apply I1 in H0|]; lia.
    + apply A in H0. destruct H0 as [H0| ->]; [apply I1 in H0|]; lia.
    + exists k. split; [apply A; now right|]. split; [reflexivity|lia].
    + intros i Hi Hn. apply A. destruct (Nat.eq_dec i k) as [->|]; [now right|]. left. apply I4; [lia|assumption].
    + intros i Hi. destruct (Nat.eq_dec i k) as [->|]; [left; apply A; now right|]. destruct (I5 i ltac:(lia)) as [G|[j [G1 [G2 G3]]]]; [left; apply A; now left|right]. exists j. split; [assumption|]. split; [apply A; now left|assumption].
  - apply orb_false_iff in E. destruct E as [E E4]. apply orb_false_iff in E. destruct E as [E E3]. apply orb_false_iff in E. destruct E as [E1 E2].
    exists (L, c, vl). split; [reflexivity|]. unfold inv. repeat split.
    + apply I1 in H0; lia.
    + apply I1 in H0; lia.
    + exists l. repeat split; try assumption. lia.
    + intros i Hi Hn. destruct (Nat.eq_dec i k) as [->|]; [|apply I4; [lia|assumption]]. apply B1 in Hn. rewrite E1, E4 in Hn. discriminate.
    + intros i Hi. destruct (Nat.eq_dec i k) as [->|]; [|apply I5; lia]. right. exists l.
      assert (K : k <> 0%nat) by (intros ->; unfold c4 in E4; discriminate).
      split; [lia|]. split; [assumption|]. rewrite <- I3. destruct (Rleb_spec 1 (nth k v 0 - vl)); [discriminate|lra].
Qed.
Lemma loop_inv : exists st, foreach (List.combine (zrange 0 (Z.of_nat N)) v) (visit v cs mx) ([0%Z], 0, nth 0 v 0) = Ok st /\ inv N st.
Proof.
  unfold N. rewrite (enum_eq v 0). fold N. apply (foreach_inv inv).
  - unfold inv. repeat split.
    + destruct H as [<-|[]]. lia.
    + destruct H as [<-|[]]. lia.
    + exists 0%nat. repeat split; [now left|lia].
    + intros; lia.
    + intros; lia.
  - intros k s Hk. now apply inv_step.
Qed.
End Loop.

(** ** The nodes *)
Definition low_high (v : list R) (lo hi : nat) : Prop :=
  argmin (map (fun v => Rabs (v + 1)) v) = Ok (Z.of_nat lo) /\ argmin (map (fun v => Rabs (v - 1)) v) = Ok (Z.of_nat hi) /\ (lo < length v)%nat /\ (hi < length v)%nat.
Lemma low_high_exists v : (1 <= length v)%nat -> exists lo hi, low_high v lo hi /\
  (forall j, (j < length v)%nat -> Rabs (nth lo v 0 + 1) <= Rabs (nth j v 0 + 1)) /\ (forall j, (j < length v)%nat -> Rabs (nth hi v 0 - 1) <= Rabs (nth j v 0 - 1)).
Proof.
  intros H. assert (G : forall f : R -> R, exists k, argmin (map f v) = Ok (Z.of_nat k) /\ (k < length v)%nat /\ forall j, (j < length v)%nat -> f (nth k v 0) <= f (nth j v 0)).
  { intros f. destruct (argmin_spec (map f v)) as [k [E [K M]]]; [intros E; apply (f_equal (@length R)) in E; rewrite map_length in E; simpl in E; lia|].
    rewrite map_length in *. exists k. split; [assumption|]. split; [assumption|]. intros j Hj. specialize (M j Hj).
    rewrite (nth_indep _ 0 (f 0)) in M by now rewrite map_length. rewrite (nth_indep (map f v) 0 (f 0)) in M by now rewrite map_length. now rewrite !map_nth in M. }
  destruct (G (fun v => Rabs (v + 1))) as [lo [E1 [K1 M1]]], (G (fun v => Rabs (v - 1))) as [hi [E2 [K2 M2]]]. exists lo, hi. repeat split; assumption.
Qed.

Lemma pick_ok v cs mx lo hi : length cs = length v -> low_high v lo hi -> (lo + 30 <= hi)%nat ->
  exists idx, pick_nodes v cs mx = Ok idx /\ asc idx /\
    (forall x, In x idx -> (Z.min 0 (Z.of_nat (length v) - 201) <= x < Z.max 200 (Z.of_nat (length v)))%Z) /\
    ((201 <= length v)%nat -> forall x, In x idx -> (0 <= x < Z.of_nat (length v))%Z) /\
    In (Z.of_nat (length v) - 201)%Z idx /\
    (forall i, (i < length v)%nat -> near v i -> In (Z.of_nat i) idx) /\
    (forall i, (i < length v)%nat -> In (Z.of_nat i) idx \/ exists l, (l < i)%nat /\ In (Z.of_nat l) idx /\ nth i v 0 - nth l v 0 < 1).
Proof.
  intros HC [E1 [E2 [K1 K2]]] H30. unfold pick_nodes. cbv zeta. set (N := length v) in *.
  rewrite (pyget_nth v 0 0) by lia. change (0 <? 0)%Z with false. cbv iota. change (Z.to_nat 0) with 0%nat. cbn [bind].
  destruct (loop_inv v cs mx HC ltac:(lia)) as [[[L c] vl] [EL I]]. fold N in EL, I. rewrite EL. cbn [bind]. destruct I as [I1 [[l [I2 _]] [I4 I5]]].
  destruct (range3_ok 0 200 20 ltac:(lia)) as [r1 [-> R1]]. cbn [bind]. destruct (range3_ok (Z.of_nat N - 200 - 1) (Z.of_nat N) 20 ltac:(lia)) as [r2 [-> R2]]. cbn [bind].
  rewrite E1. cbn [bind]. rewrite E2. cbn [bind].
  destruct (range3_ok (Z.of_nat lo) (Z.of_nat hi) ((Z.of_nat hi - Z.of_nat lo) / 30)) as [r3 [-> R3]]; [apply Z.div_str_pos; lia|]. cbn [bind].
  eexists. split; [reflexivity|]. split; [apply sorted_set_asc|].
  assert (X : forall x, In x (sorted_set (L ++ r1 ++ r2 ++ r3)) <-> In x L \/ In x r1 \/ In x r2 \/ In x r3) by (intros; now rewrite sorted_set_in, !in_app_iff).
  repeat split.
  - apply X in H. destruct H as [H|[H|[H|H]]]; [apply I1 in H|apply R1 in H|apply R2 in H|apply R3 in H]; lia.
  - apply X in H. destruct H as [H|[H|[H|H]]]; [apply I1 in H|apply R1 in H|apply R2 in H|apply R3 in H]; lia.
  - apply X in H0. destruct H0 as [H0|[H0|[H0|H0]]]; [apply I1 in H0|apply R1 in H0|apply R2 in H0|apply R3 in H0]; lia.
  - apply X in H0. destruct H0 as [H0|[H0|[H0|H0]]]; [apply I1 in H0|apply R1 in H0|apply R2 in H0|apply R3 in H0]; lia.
  - apply X. right; right; left. apply R2. split; [lia|]. now replace (Z.of_nat N - 201 - (Z.of_nat N - 200 - 1))%Z with 0%Z by ring.
  - intros i Hi Hn. apply X. left. now apply I4.
  - intros i Hi. destruct (I5 i Hi) as [G|[j [G1 [G2 G3]]]]; [left; apply X; now left|right; exists j; repeat split; try assumption; apply X; now left].
Qed.
