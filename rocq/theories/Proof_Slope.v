(** Proofs about slope and slope_span_n. *)
From Coq Require Import List ZArith Lia Bool Arith Reals Lra.
From Verif Require Import Base Model_QtCurrent Proof_Circuit Float NumPy Proof_NumPy Spec_MathFn Model_MathFn Proof_IVModels.
Import ListNotations.
Open Scope R_scope.

(** Differences of two slices. *)
Lemma diff_eq (l : list R) (a : nat) : (1 <= a)%nat ->
  bcast Rminus (pyslice l (Some (Z.of_nat a)) None) (pyslice l None (Some (- Z.of_nat a)%Z)) =
  Ok (zipwith Rminus (pyslice l (Some (Z.of_nat a)) None) (pyslice l None (Some (- Z.of_nat a)%Z))) /\
  length (pyslice l (Some (Z.of_nat a)) None) = (length l - a)%nat /\ length (pyslice l None (Some (- Z.of_nat a)%Z)) = (length l - a)%nat.
Proof.
  intros H. assert (L1 : length (pyslice l (Some (Z.of_nat a)) None) = (length l - a)%nat) by (rewrite pyslice_length, slice_pos by lia; lia).
  assert (L2 : length (pyslice l None (Some (- Z.of_nat a)%Z)) = (length l - a)%nat) by (rewrite pyslice_length, slice_neg by lia; lia).
  split; [|split; assumption]. apply bcast_eq. lia.
Qed.
Lemma diff_nth (l : list R) (a k : nat) : (1 <= a)%nat -> (k < length l - a)%nat ->
  nth k (zipwith Rminus (pyslice l (Some (Z.of_nat a)) None) (pyslice l None (Some (- Z.of_nat a)%Z))) 0 = nth (k + a) l 0 - nth k l 0.
Proof.
  intros H Hk. destruct (diff_eq l a H) as [_ [L1 L2]]. rewrite (nth_zipwith _ _ _ _ 0 0 0) by lia. rewrite !nth_pyslice by lia. rewrite slice_pos by lia. f_equal; f_equal; lia.
Qed.

Lemma half_n h : ((2 * Z.of_nat h + 1 - 1) / 2 = Z.of_nat h)%Z.
Proof. replace (2 * Z.of_nat h + 1 - 1)%Z with (Z.of_nat h * 2)%Z by lia. apply Z.div_mul. lia. Qed.
Lemma n_odd h : ((2 * Z.of_nat h + 1) mod 2 =? 1)%Z = true.
Proof. replace (2 * Z.of_nat h + 1)%Z with (1 + Z.of_nat h * 2)%Z by lia. rewrite Z.mod_add by lia. reflexivity. Qed.

Lemma span_eq (l : list R) (m : nat) : span_diff l (Z.of_nat m) = bcast Rminus (pyslice l (Some (Z.of_nat (2 * m + 1))) None) (pyslice l None (Some (- Z.of_nat (2 * m + 1))%Z)).
Proof. unfold span_diff. replace (2 * Z.of_nat m + 1)%Z with (Z.of_nat (2 * m + 1)) by lia. do 3 f_equal. lia. Qed.

Section Data.
Variables x y : list R.
Hypothesis HL : length y = length x.
Notation N := (length x).
Let dz : fl := FV 0.

(** The quotients of the differences over a points. *)
Lemma quot_eq a : (1 <= a)%nat -> exists q,
  bcast (fun a b => fdiv (FV a) (FV b)) (zipwith Rminus (pyslice y (Some (Z.of_nat a)) None) (pyslice y None (Some (- Z.of_nat a)%Z)))
    (zipwith Rminus (pyslice x (Some (Z.of_nat a)) None) (pyslice x None (Some (- Z.of_nat a)%Z))) = Ok q /\
  length q = (N - a)%nat /\ forall k, (k < N - a)%nat -> nth k q dz = secant x y k (k + a).
Proof.
  intros H. destruct (diff_eq y a H) as [_ [Y1 Y2]], (diff_eq x a H) as [_ [X1 X2]].
  assert (LY : length (zipwith Rminus (pyslice y (Some (Z.of_nat a)) None) (pyslice y None (Some (- Z.of_nat a)%Z))) = (N - a)%nat) by (rewrite zipwith_length; lia).
  assert (LX : length (zipwith Rminus (pyslice x (Some (Z.of_nat a)) None) (pyslice x None (Some (- Z.of_nat a)%Z))) = (N - a)%nat) by (rewrite zipwith_length; lia).
  rewrite bcast_eq by lia. eexists. split; [reflexivity|]. split; [rewrite zipwith_length; lia|]. intros k Hk.
  rewrite (nth_zipwith _ _ _ _ 0 0 dz) by lia. rewrite !diff_nth by lia. reflexivity.
Qed.

Lemma set_slice_nth {A} (l vals : list A) lo hi (a b : nat) d : 
  (match lo with Some k => slice_bound (length l) k | None => O end) = a ->
  (match hi with Some k => slice_bound (length l) k | None => length l end) = b ->
  (a <= b <= length l)%nat -> length vals = (b - a)%nat -> exists l', set_slice l lo hi vals = Ok l' /\ length l' = length l /\
  forall i, nth i l' d = if ((a <=? i) && (i <? b))%nat then nth (i - a) vals d else nth i l d.
Proof.
  intros Ea Eb H Hv. unfold set_slice. cbv zeta. rewrite Ea, Eb, (Nat.max_r a b) by lia. rewrite Hv, Nat.eqb_refl. eexists. split; [reflexivity|]. split.
  - rewrite !app_length, firstn_length, skipn_length. lia.
  - intros i. assert (LF : length (firstn a l) = a) by (rewrite firstn_length; lia).
    destruct (Nat.leb_spec a i); cbn [andb].
    + rewrite app_nth2 by lia. rewrite LF. destruct (Nat.ltb_spec i b).
      * now rewrite app_nth1 by lia.
      * rewrite app_nth2 by lia. rewrite nth_skipn. f_equal. lia.
    + rewrite app_nth1 by lia. apply nth_firstn. lia.
Qed.

Lemma slope_spec : (2 <= N)%nat -> exists d, slope x y = Ok d /\ length d = N /\
  nth 0 d dz = secant x y 0 1 /\ nth (N - 1) d dz = secant x y (N - 2) (N - 1) /\
  forall i, (1 <= i)%nat -> (i + 1 < N)%nat -> nth i d dz = secant x y (i - 1) (i + 1).
Proof.
  intros HN. unfold slope. cbv zeta. change (Some 2%Z) with (Some (Z.of_nat 2)). change (Some (-2)%Z) with (Some (- Z.of_nat 2)%Z). destruct (diff_eq y 2 ltac:(lia)) as [-> _], (diff_eq x 2 ltac:(lia)) as [-> _]. cbn [bind].
  destruct (quot_eq 2 ltac:(lia)) as [q [-> [LQ Q]]]. cbn [bind].
  destruct (set_slice_nth (repeat (FV 0) N) q (Some 1%Z) (Some (-1)%Z) 1 (N - 1) dz) as [d1 [-> [L1 D1]]];
    [rewrite repeat_length, slice_pos by lia; lia|rewrite repeat_length, slice_neg by lia; lia|rewrite repeat_length; lia|lia|]. rewrite repeat_length in L1. cbn [bind].
  rewrite !(pyget_nth _ _ 0) by lia. cbn [bind]. unfold aset. rewrite pyset_nth by lia. cbn [bind]. rewrite pyset_nth by (rewrite list_set_length; lia). 
  eexists. split; [reflexivity|]. rewrite !list_set_length, HL, L1. split; [reflexivity|]. change (-1 <? 0)%Z with true. change (0 <? 0)%Z with false. change (-2 <? 0)%Z with true. change (1 <? 0)%Z with false. cbv iota.
  replace (Z.to_nat (-1 + Z.of_nat N)) with (N - 1)%nat by lia. replace (Z.to_nat (-2 + Z.of_nat N)) with (N - 2)%nat by lia. change (Z.to_nat 0) with 0%nat. change (Z.to_nat 1) with 1%nat.
  split; [|split].
  - rewrite !nth_list_set by (rewrite ?list_set_length; lia). destruct (Nat.eqb_spec 0 (N - 1)); [lia|]. reflexivity.
  - rewrite nth_list_set by (rewrite ?list_set_length; lia). now rewrite Nat.eqb_refl.
  - intros i Hi Hi2. rewrite !nth_list_set by (rewrite ?list_set_length; lia). destruct (Nat.eqb_spec i (N - 1)); [lia|]. destruct (Nat.eqb_spec i 0); [lia|].
    rewrite D1. destruct (Nat.leb_spec 1 i), (Nat.ltb_spec i (N - 1)); try lia. cbn [andb]. rewrite Q by lia. f_equal. lia.
Qed.
Lemma slope_short : (N < 2)%nat -> slope x y = Err IndexError.
Proof.
  intros HN. unfold slope. destruct x as [|x0 [|x1 x']], y as [|y0 [|y1 y']]; simpl in *; try lia; reflexivity.
Qed.

(** ** slope_span_n *)
Variable h : nat.
Hypothesis Hh : (1 <= h)%nat.

Notation body := (fun n der =>
    let* rise := span_diff y n in
    let* run := span_diff x n in
    let* a := pyget rise n in let* b := pyget run n in
    let* der := aset der n (fdiv (FV a) (FV b)) in
    let* a := pyget rise (- n) in let* b := pyget run (- n) in
    aset der (- n) (fdiv (FV a) (FV b))).

Lemma body_ok (m : nat) der : (1 <= m)%nat -> (3 * m + 2 <= N)%nat -> length der = N -> exists d, body (Z.of_nat m) der = Ok d /\ length d = N /\
  forall i, (i < N)%nat -> nth i d dz = if (i =? m)%nat then secant x y m (3 * m + 1) else if (i =? N - m)%nat then secant x y (N - 3 * m - 1) (N - m) else nth i der dz.
Proof.
  intros Hm HN LD. cbv beta. rewrite !span_eq. destruct (diff_eq y (2 * m + 1) ltac:(lia)) as [-> [Y1 Y2]], (diff_eq x (2 * m + 1) ltac:(lia)) as [-> [X1 X2]]. cbn [bind].
  set (rise := zipwith Rminus (pyslice y _ _) _). set (run := zipwith Rminus (pyslice x _ _) _).
  assert (LR : length rise = (N - (2 * m + 1))%nat) by (unfold rise; rewrite zipwith_length; lia). assert (LR' : length run = (N - (2 * m + 1))%nat) by (unfold run; rewrite zipwith_length; lia).
  rewrite !(pyget_nth rise _ 0), !(pyget_nth run _ 0) by lia. cbn [bind]. unfold aset. rewrite pyset_nth by lia. cbn [bind]. rewrite pyset_nth by (rewrite list_set_length; lia).
  eexists. split; [reflexivity|]. rewrite !list_set_length. split; [assumption|]. intros i Hi.
  destruct (Z.ltb_spec (Z.of_nat m) 0); [lia|]. destruct (Z.ltb_spec (- Z.of_nat m) 0); [|lia]. rewrite LR, LR', LD, Nat2Z.id.
  replace (Z.to_nat (- Z.of_nat m + Z.of_nat N)) with (N - m)%nat by lia. replace (Z.to_nat (- Z.of_nat m + Z.of_nat (N - (2 * m + 1)))) with (N - 3 * m - 1)%nat by lia.
  rewrite !nth_list_set by (rewrite ?list_set_length; lia). destruct (Nat.eqb_spec i (N - m)); destruct (Nat.eqb_spec i m); try lia; try reflexivity.
  - unfold rise, run. rewrite !diff_nth by lia. unfold secant. do 4 f_equal; lia.
  - unfold rise, run. rewrite !diff_nth by lia. unfold secant. do 4 f_equal; lia.
Qed.
Lemma body_err (m : nat) der : (1 <= m)%nat -> (N < 3 * m + 2)%nat -> body (Z.of_nat m) der = Err IndexError.
Proof.
  intros Hm HN. cbv beta. rewrite !span_eq. destruct (diff_eq y (2 * m + 1) ltac:(lia)) as [-> [Y1 Y2]], (diff_eq x (2 * m + 1) ltac:(lia)) as [-> [X1 X2]]. cbn [bind].
  rewrite pyget_err; [reflexivity|]. rewrite zipwith_length by lia. lia.
Qed.

Lemma zrange_1 (k : nat) : zrange 1 (Z.of_nat (S k) + 1) = zrange 1 (Z.of_nat k + 1) ++ [Z.of_nat (S k)].
Proof. replace (Z.of_nat (S k)) with (Z.of_nat k + 1)%Z by lia. apply zrange_snoc. lia. Qed.

Lemma loop_ok (k : nat) der : (3 * k + 2 <= N)%nat -> length der = N -> exists d, foreach (zrange 1 (Z.of_nat k + 1)) body der = Ok d /\ length d = N /\
  forall i, (i < N)%nat -> nth i d dz = if ((1 <=? i) && (i <=? k))%nat then secant x y i (3 * i + 1)
                            else if ((N - k <=? i))%nat then secant x y (N - 3 * (N - i) - 1) i else nth i der dz.
Proof.
  induction k as [|k IH]; intros HN LD.
  - exists der. split; [reflexivity|]. split; [assumption|]. intros i Hi. destruct (Nat.leb_spec 1 i), (Nat.leb_spec i 0), (Nat.leb_spec (N - 0) i); try lia; reflexivity.
  - destruct (IH ltac:(lia) LD) as [d [E [L D]]]. rewrite zrange_1, foreach_app, E. cbn [bind foreach].
    destruct (body_ok (S k) d ltac:(lia) HN L) as [d' [E' [L' D']]]. cbv beta in E'. rewrite E'. exists d'. split; [reflexivity|]. split; [assumption|].
    intros i Hi. rewrite D' by assumption. rewrite D by assumption.
    destruct (Nat.eqb_spec i (S k)) as [->|].
    + destruct (Nat.leb_spec 1 (S k)), (Nat.leb_spec (S k) (S k)); try lia. reflexivity.
    + destruct (Nat.eqb_spec i (N - S k)) as [Ei|].
      * destruct (Nat.leb_spec 1 i), (Nat.leb_spec i (S k)); try lia. cbn [andb]. destruct (Nat.leb_spec (N - S k) i); [|lia]. f_equal; lia.
      * destruct (Nat.leb_spec 1 i), (Nat.leb_spec i (S k)), (Nat.leb_spec i k), (Nat.leb_spec (N - S k) i), (Nat.leb_spec (N - k) i); cbn [andb]; try lia; reflexivity.
Qed.
Lemma loop_err (k : nat) der : (1 <= k)%nat -> (N < 3 * k + 2)%nat -> length der = N -> foreach (zrange 1 (Z.of_nat k + 1)) body der = Err IndexError.
Proof.
  induction k as [|k IH]; intros Hk HN LD; [lia|]. rewrite zrange_1, foreach_app.
  destruct (Nat.le_gt_cases (3 * k + 2) N) as [G|G].
  - destruct (loop_ok k der G LD) as [d [-> [L _]]]. cbn [bind foreach]. rewrite body_err by lia. reflexivity.
  - destruct k.
    + change (zrange 1 (Z.of_nat 0 + 1)) with (@nil Z). cbn [foreach bind]. rewrite (body_err 1) by lia. reflexivity.
    + rewrite IH by lia. reflexivity.
Qed.

Let n : Z := (2 * Z.of_nat h + 1)%Z.

(** What is computed before zeros are replaced. *)
Definition raw (i : nat) : fl :=
  let i := if (i =? 0)%nat then 1%nat else if (i =? N - 1)%nat then (N - 2)%nat else i in
  if (i <=? h)%nat then secant x y i (3 * i + 1)
  else if (N - h <=? i)%nat then secant x y (N - 3 * (N - i) - 1) i
  else secant x y (i - h - 1) (i + h).

Lemma span_spec nozeros : (3 * h + 2 <= N)%nat -> exists d, slope_span_n x y n nozeros = Ok d /\ length d = N /\
  forall i, (i < N)%nat -> nth i d dz = (let r := raw i in if nozeros && feq r (FV 0) then FV (/ 10 ^ 10) else r).
Proof.
  intros HN. unfold slope_span_n, n. rewrite n_odd, half_n. cbn [guard bind]. rewrite !span_eq.
  destruct (diff_eq y (2 * h + 1) ltac:(lia)) as [-> _], (diff_eq x (2 * h + 1) ltac:(lia)) as [-> _]. cbn [bind].
  destruct (quot_eq (2 * h + 1) ltac:(lia)) as [q [-> [LQ Q]]]. cbn [bind].
  destruct (set_slice_nth (repeat (FV 0) N) q (Some (Z.of_nat h + 1)%Z) (Some (- Z.of_nat h)%Z) (h + 1) (N - h) dz) as [d1 [-> [L1 D1]]];
    [rewrite repeat_length, slice_pos by lia; lia|rewrite repeat_length, slice_neg by lia; lia|rewrite repeat_length; lia|lia|]. rewrite repeat_length in L1. cbn [bind].
  destruct (loop_ok h d1 HN L1) as [d2 [E2 [L2 D2]]]. cbv beta in E2. rewrite E2. cbn [bind].
  rewrite (pyget_nth d2 1 dz) by lia. cbn [bind]. unfold aset. rewrite pyset_nth by lia. cbn [bind]. rewrite (pyget_nth _ (-2) dz) by (rewrite list_set_length; lia). cbn [bind]. rewrite pyset_nth by (rewrite list_set_length; lia). cbn [bind].
  change (1 <? 0)%Z with false. change (0 <? 0)%Z with false. change (-1 <? 0)%Z with true. change (-2 <? 0)%Z with true. cbv iota. rewrite list_set_length, L2.
  change (Z.to_nat 1) with 1%nat. change (Z.to_nat 0) with 0%nat.
  replace (Z.to_nat (-2 + Z.of_nat N)) with (N - 2)%nat by lia. replace (Z.to_nat (-1 + Z.of_nat N)) with (N - 1)%nat by lia.
  set (d3 := list_set (list_set d2 0 (nth 1 d2 dz)) (N - 1) _). assert (L3 : length d3 = N) by (unfold d3; now rewrite !list_set_length).
  assert (D3 : forall i, (i < N)%nat -> nth i d3 dz = raw i).
  { assert (B : forall i, (1 <= i < N)%nat -> nth i d2 dz = if (i <=? h)%nat then secant x y i (3 * i + 1)
        else if (N - h <=? i)%nat then secant x y (N - 3 * (N - i) - 1) i else secant x y (i - h - 1) (i + h)).
    { intros i Hi. rewrite D2 by lia. destruct (Nat.leb_spec 1 i); [|lia]. cbn [andb]. destruct (Nat.leb_spec i h); [reflexivity|]. destruct (Nat.leb_spec (N - h) i); [reflexivity|].
      rewrite D1. destruct (Nat.leb_spec (h + 1) i), (Nat.ltb_spec i (N - h)); try lia. cbn [andb]. rewrite Q by lia. f_equal; lia. }
    intros i Hi. unfold d3, raw. cbv zeta. rewrite !nth_list_set by (rewrite ?list_set_length; lia).
    destruct (Nat.eqb_spec i 0) as [->|].
    - destruct (Nat.eqb_spec 0 (N - 1)); [lia|]. apply B. lia.
    - destruct (Nat.eqb_spec i (N - 1)) as [->|].
      + destruct (Nat.eqb_spec (N - 2) 0); [lia|]. apply B. lia.
      + apply B. lia. }
  clearbody d3. destruct nozeros; cbn [andb].
  - eexists. split; [reflexivity|]. rewrite map_length. split; [assumption|]. intros i Hi.
    rewrite nth_indep with (d' := (fun d => if feq d (FV 0) then FV (/ 10 ^ 10) else d) dz) by (rewrite map_length; lia).
    rewrite map_nth with (f := fun d => if feq d (FV 0) then FV (/ 10 ^ 10) else d). rewrite D3 by assumption. reflexivity.
  - exists d3. split; [reflexivity|]. split; [assumption|]. intros i Hi. now apply D3.
Qed.
Lemma span_short nozeros : (N < 3 * h + 2)%nat -> slope_span_n x y n nozeros = Err IndexError.
Proof.
  intros HN. unfold slope_span_n, n. rewrite n_odd, half_n. cbn [guard bind]. rewrite !span_eq.
  destruct (diff_eq y (2 * h + 1) ltac:(lia)) as [-> _], (diff_eq x (2 * h + 1) ltac:(lia)) as [-> _]. cbn [bind].
  destruct (quot_eq (2 * h + 1) ltac:(lia)) as [q [-> [LQ Q]]]. cbn [bind].
  assert (S : exists d1, set_slice (repeat (FV 0) N) (Some (Z.of_nat h + 1)%Z) (Some (- Z.of_nat h)%Z) q = Ok d1 /\ length d1 = N).
  { unfold set_slice. cbv zeta. rewrite repeat_length, slice_pos, slice_neg by lia. replace (length q =? _)%nat with true.
    - eexists. split; [reflexivity|]. rewrite !app_length, firstn_length, skipn_length, repeat_length. lia.
    - symmetry. apply Nat.eqb_eq. lia. }
  destruct S as [d1 [-> L1]]. cbn [bind]. rewrite loop_err by lia. reflexivity.
Qed.
End Data.

(** n = 1 *)
Lemma span_one x y nozeros : length y = length x -> (3 <= length x)%nat -> slope_span_n x y 1 nozeros = Err ValueError.
Proof.
  intros HL HN. unfold slope_span_n. change (1 mod 2 =? 1)%Z with true. change ((1 - 1) / 2)%Z with (Z.of_nat 0). cbn [guard bind]. rewrite !span_eq.
  destruct (diff_eq y (2 * 0 + 1) ltac:(lia)) as [-> _], (diff_eq x (2 * 0 + 1) ltac:(lia)) as [-> _]. cbn [bind].
  destruct (quot_eq x y HL (2 * 0 + 1) ltac:(lia)) as [q [-> [LQ Q]]]. cbn [bind]. unfold set_slice. cbv zeta. rewrite repeat_length.
  rewrite !slice_pos by lia. replace (length q =? _)%nat with false by (symmetry; apply Nat.eqb_neq; lia). destruct q as [|a [|b q]]; simpl in LQ; try lia. reflexivity.
Qed.
Lemma span_even x y n nozeros : (n mod 2 = 0)%Z -> slope_span_n x y n nozeros = Err AssertionError.
Proof. intros H. unfold slope_span_n. rewrite H. reflexivity. Qed.

(** ** Lines *)
Lemma secant_line a b x y i j : on_line a b x y -> (i < length x)%nat -> (j < length x)%nat -> nth i x 0 <> nth j x 0 -> secant x y i j = FV a.
Proof.
  intros [_ H] Hi Hj D. unfold secant, fdiv. rewrite !H by assumption. rewrite Reqb_f by lra. f_equal. field. lra.
Qed.
Lemma NoDup_diff (x : list R) i j : NoDup x -> (i < length x)%nat -> (j < length x)%nat -> i <> j -> nth i x 0 <> nth j x 0.
Proof. intros H Hi Hj N E. apply N. eapply NoDup_nth; eauto. Qed.

Lemma slope_line a b x y : on_line a b x y -> NoDup x -> (2 <= length x)%nat -> slope x y = Ok (repeat (FV a) (length x)).
Proof.
  intros L ND HN. destruct (slope_spec x y (proj1 L) HN) as [d [-> [LD [D0 [D1 D]]]]]. f_equal. apply (list_ext _ _ (FV 0)); [now rewrite repeat_length|].
  intros i Hi. rewrite nth_repeat' by lia. rewrite LD in Hi.
  destruct (Nat.eq_dec i 0) as [->|]; [rewrite D0; apply (secant_line a b); auto; try lia; apply NoDup_diff; auto; lia|].
  destruct (Nat.eq_dec i (length x - 1)) as [->|]; [rewrite D1; apply (secant_line a b); auto; try lia; apply NoDup_diff; auto; lia|].
  rewrite D by lia. apply (secant_line a b); auto; try lia. apply NoDup_diff; auto; lia.
Qed.

Lemma odd_half n : (n mod 2 = 1)%Z -> (3 <= n)%Z -> exists h, n = (2 * Z.of_nat h + 1)%Z /\ (1 <= h)%nat.
Proof. intros H Hn. exists (Z.to_nat (n / 2)). pose proof (Z.div_mod n 2 ltac:(lia)). split; lia. Qed.

Lemma span_line a b x y n nozeros : on_line a b x y -> NoDup x -> (n mod 2 = 1)%Z -> (3 <= n)%Z -> (3 * n + 1 <= 2 * Z.of_nat (length x))%Z ->
  slope_span_n x y n nozeros = Ok (repeat (if nozeros && Reqb a 0 then FV (/ 10 ^ 10) else FV a) (length x)).
Proof.
  intros L ND Hn H3 HN. destruct (odd_half n Hn H3) as [h [-> Hh]]. destruct (span_spec x y (proj1 L) h Hh nozeros ltac:(lia)) as [d [-> [LD D]]]. f_equal.
  apply (list_ext _ _ (FV 0)); [now rewrite repeat_length|]. intros i Hi. rewrite LD in Hi. rewrite nth_repeat' by lia. rewrite D by assumption. cbv zeta.
  assert (R : raw x y h i = FV a).
  { unfold raw. cbv zeta. set (j := if (i =? 0)%nat then _ else _). assert (Hj : (1 <= j < length x)%nat) by (unfold j; destruct (Nat.eqb_spec i 0), (Nat.eqb_spec i (length x - 1)); lia). clearbody j.
    destruct (Nat.leb_spec j h); [|destruct (Nat.leb_spec (length x - h) j)]; apply (secant_line a b); auto; try lia; apply NoDup_diff; auto; lia. }
  now rewrite R.
Qed.

Lemma span_nonzero x y n d : length y = length x -> (n mod 2 = 1)%Z -> (3 <= n)%Z -> slope_span_n x y n true = Ok d -> Forall (fun v => v <> FV 0) d.
Proof.
  intros HL Hn H3 E. destruct (odd_half n Hn H3) as [h [-> Hh]]. destruct (Nat.le_gt_cases (3 * h + 2) (length x)) as [G|G].
  - destruct (span_spec x y HL h Hh true G) as [d' [E' [LD D]]]. rewrite E in E'. injection E' as <-. apply Forall_forall. intros v Hv. destruct (In_nth d v (FV 0) Hv) as [i [Hi <-]].
    rewrite D by lia. cbv zeta. cbn [andb]. destruct (feq (raw x y h i) (FV 0)) eqn:F.
    + intros [= K]. assert (0 < / 10 ^ 10) by (apply Rinv_0_lt_compat, pow_lt; lra). lra.
    + intros K. rewrite K in F. cbn [feq] in F. rewrite Reqb_t in F by reflexivity. discriminate.
  - rewrite span_short in E by assumption. discriminate.
Qed.

(** Away from the ends: the secant from h+1 samples before to h samples after. *)
Lemma span_interior x y n i d : length y = length x -> (n mod 2 = 1)%Z -> (3 <= n)%Z -> slope_span_n x y n false = Ok d ->
  let h := Z.to_nat ((n - 1) / 2) in (h + 1 <= i)%nat -> (i + h + 1 < length x)%nat ->
  nth i d (FV 0) = secant x y (i - h - 1) (i + h).
Proof.
  intros HL Hn H3 E. destruct (odd_half n Hn H3) as [h [-> Hh]]. rewrite half_n, Nat2Z.id. cbv zeta. intros Hi Hi2.
  destruct (Nat.le_gt_cases (3 * h + 2) (length x)) as [G|G].
  - destruct (span_spec x y HL h Hh false G) as [d' [E' [LD D]]]. rewrite E in E'. injection E' as <-. rewrite D by lia. cbn [andb]. unfold raw. cbv zeta.
    destruct (Nat.eqb_spec i 0); [lia|]. destruct (Nat.eqb_spec i (length x - 1)); [lia|]. destruct (Nat.leb_spec i h); [lia|]. destruct (Nat.leb_spec (length x - h) i); [lia|]. reflexivity.
  - rewrite span_short in E by assumption. discriminate.
Qed.

(** A parabola. *)
Lemma span_square n N i d : (n mod 2 = 1)%Z -> (3 <= n)%Z -> let x := map INR (seq 0 N) in let y := map (fun k => INR k ^ 2) (seq 0 N) in
  slope_span_n x y n false = Ok d ->
  let h := Z.to_nat ((n - 1) / 2) in (h + 1 <= i)%nat -> (i + h + 1 < N)%nat -> nth i d (FV 0) = FV (2 * INR i - 1).
Proof.
  intros Hn H3 x y E h Hi Hi2. assert (LX : length x = N) by (unfold x; now rewrite map_length, seq_length). assert (LY : length y = N) by (unfold y; now rewrite map_length, seq_length).
  rewrite (span_interior x y n i d) by (auto; lia). fold h. unfold secant, x, y. rewrite !nth_map_seq by lia. unfold fdiv.
  assert (P : INR (i + h) - INR (i - h - 1) = 2 * INR h + 1). { rewrite plus_INR, !minus_INR by lia. simpl (INR 1). ring. }
  assert (Q : INR (i + h) + INR (i - h - 1) = 2 * INR i - 1). { rewrite plus_INR, !minus_INR by lia. simpl (INR 1). ring. }
  assert (0 <= INR h) by apply pos_INR. rewrite Reqb_f by lra. f_equal. rewrite <- Q. field. lra.
Qed.
Lemma sizes x y : length y = length x ->
  ((length x < 2)%nat -> slope x y = Err IndexError) /\
  (forall n nozeros, (n mod 2 = 1)%Z -> (3 <= n)%Z -> (2 * Z.of_nat (length x) < 3 * n + 1)%Z -> slope_span_n x y n nozeros = Err IndexError) /\
  (forall n nozeros, (n mod 2 = 0)%Z -> slope_span_n x y n nozeros = Err AssertionError).
Proof.
  intros HL. split; [now apply slope_short|]. split; [|intros; now apply span_even].
  intros n z Hn H3 Hs. destruct (odd_half n Hn H3) as [h [-> Hh]]. apply span_short; try assumption. lia.
Qed.
