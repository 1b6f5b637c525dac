(** Arrays of different length. *)
From Coq Require Import List ZArith Lia Bool Arith Reals Lra.
From Verif Require Import Base Model_QtCurrent Proof_Circuit Float NumPy Proof_NumPy Spec_MathFn Model_MathFn Proof_IVModels Proof_Slope Model_CleanData Proof_CleanData.
Import ListNotations.
Open Scope R_scope.

Lemma bcast_differ {A B C} (f : A -> B -> C) a b : length a <> length b -> length a <> 1%nat -> length b <> 1%nat -> bcast f a b = Err ValueError.
Proof.
  intros D A1 B1. unfold bcast. destruct (Nat.eqb_spec (length a) (length b)); [contradiction|]. destruct a as [|x [|x' a]]; [|exfalso; now apply A1|]; (destruct b as [|y [|y' b]]; [|exfalso; now apply B1|]); reflexivity.
Qed.
Lemma diff_length (l : list R) (a : nat) : (1 <= a)%nat -> length (zipwith Rminus (pyslice l (Some (Z.of_nat a)) None) (pyslice l None (Some (- Z.of_nat a)%Z))) = (length l - a)%nat.
Proof. intros H. destruct (diff_eq l a H) as [_ [L1 L2]]. rewrite zipwith_length; lia. Qed.

Lemma slope_differ x y : length x <> length y -> (4 <= length x)%nat -> (4 <= length y)%nat -> slope x y = Err ValueError.
Proof.
  intros D X Y. unfold slope. cbv zeta. change (Some 2%Z) with (Some (Z.of_nat 2)). change (Some (-2)%Z) with (Some (- Z.of_nat 2)%Z). destruct (diff_eq y 2 ltac:(lia)) as [-> _], (diff_eq x 2 ltac:(lia)) as [-> _]. cbn [bind].
  rewrite bcast_differ; [reflexivity| | |]; rewrite !diff_length by lia; lia.
Qed.
Lemma span_differ x y n nozeros : length x <> length y -> (n mod 2 = 1)%Z -> (1 <= n)%Z -> (n + 2 <= Z.of_nat (length x))%Z -> (n + 2 <= Z.of_nat (length y))%Z -> slope_span_n x y n nozeros = Err ValueError.
Proof.
  intros D O N X Y. unfold slope_span_n. rewrite O. cbn [guard bind Z.eqb Pos.eqb]. cbv zeta. set (h := Z.to_nat ((n - 1) / 2)).
  assert (E : n = (2 * Z.of_nat h + 1)%Z). { unfold h. rewrite Z2Nat.id by (apply Z.div_pos; lia). pose proof (Z.div_mod n 2 ltac:(lia)) as M. replace (n - 1)%Z with (n / 2 * 2)%Z by lia. rewrite Z.div_mul by lia. lia. }
  replace ((n - 1) / 2)%Z with (Z.of_nat h) by (unfold h; rewrite Z2Nat.id by (apply Z.div_pos; lia); reflexivity). rewrite !span_eq.
  destruct (diff_eq y (2 * h + 1) ltac:(lia)) as [-> _], (diff_eq x (2 * h + 1) ltac:(lia)) as [-> _]. cbn [bind]. rewrite bcast_differ; [reflexivity| | |]; rewrite !diff_length by lia; lia.
Qed.
(** Three points of y stand for all of them. *)
Lemma slope_three x a b c : (4 <= length x)%nat -> exists d, slope x [a; b; c] = Ok d /\ length d = length x /\
  forall i, (1 <= i)%nat -> (i + 1 < length x)%nat -> nth i d (FV 0) = fdiv (FV (c - a)) (FV (nth (i + 1) x 0 - nth (i - 1) x 0)).
Proof.
  intros X. unfold slope. cbv zeta. change (Some 2%Z) with (Some (Z.of_nat 2)). change (Some (-2)%Z) with (Some (- Z.of_nat 2)%Z). destruct (diff_eq [a; b; c] 2 ltac:(lia)) as [-> _], (diff_eq x 2 ltac:(lia)) as [-> _]. cbn [bind].
  change (zipwith Rminus (pyslice [a; b; c] (Some (Z.of_nat 2)) None) (pyslice [a; b; c] None (Some (- Z.of_nat 2)%Z))) with [c - a]. set (r := zipwith Rminus (pyslice x (Some (Z.of_nat 2)) None) (pyslice x None (Some (- Z.of_nat 2)%Z))).
  assert (LR : length r = (length x - 2)%nat) by (apply diff_length; lia). unfold bcast. cbn [length]. destruct (Nat.eqb_spec 1 (length r)); [lia|]. cbn [bind]. set (q := map (fun y => fdiv (FV (c - a)) (FV y)) r). change (map (fun b0 : R => fdiv (FV (c - a)) (FV b0)) r) with q.
  assert (LQ : length q = (length x - 2)%nat) by (unfold q; rewrite map_length; exact LR).
  destruct (set_slice_nth [] [] eq_refl (repeat (FV 0) (length x)) q (Some 1%Z) (Some (-1)%Z) 1 (length x - 1) (FV 0)) as [d1 [-> [L1 D1]]];
    [rewrite repeat_length, slice_pos by lia; lia|rewrite repeat_length, slice_neg by lia; lia|rewrite repeat_length; lia|lia|]. rewrite repeat_length in L1. cbn [bind].
  rewrite !(pyget_nth x _ 0) by lia. rewrite !(pyget_nth [a; b; c] _ 0) by (cbn [length]; lia). cbn [bind]. unfold aset. rewrite pyset_nth by lia. cbn [bind]. rewrite pyset_nth by (rewrite list_set_length; lia).
  eexists. split; [reflexivity|]. rewrite !list_set_length, L1. split; [reflexivity|]. change (-1 <? 0)%Z with true. change (0 <? 0)%Z with false. cbv iota.
  replace (Z.to_nat (-1 + Z.of_nat (length x))) with (length x - 1)%nat by lia. change (Z.to_nat 0) with 0%nat. intros i Hi Hi2.
  rewrite !nth_list_set by (rewrite ?list_set_length; lia). destruct (Nat.eqb_spec i (length x - 1)); [lia|]. destruct (Nat.eqb_spec i 0); [lia|].
  rewrite D1. destruct (Nat.leb_spec 1 i), (Nat.ltb_spec i (length x - 1)); try lia. cbn [andb]. unfold q. rewrite (nth_indep _ (FV 0) (fdiv (FV (c - a)) (FV 0))) by (rewrite map_length; lia). rewrite (map_nth (fun y => fdiv (FV (c - a)) (FV y)) r 0).
  unfold r. rewrite diff_nth by lia. do 3 f_equal; f_equal; lia.
Qed.

(** ** Cleaning *)
Lemma select_length {A} mask (l : list A) r : select mask l = Ok r -> length mask = length l.
Proof. unfold select. destruct (Nat.eqb_spec (length mask) (length l)); [auto|discriminate]. Qed.
Lemma nans_differ x y : length x <> length y -> exists e, remove_nans_xy x y = Err e /\ (e = ValueError \/ e = IndexError).
Proof.
  intros D. unfold remove_nans_xy. destruct (bcast _ _ _) as [m|e] eqn:E; cbn [bind].
  - destruct (select m x) as [x'|e] eqn:EX; cbn [bind]; [|exists e; split; [reflexivity|right]; unfold select in EX; destruct (_ =? _)%nat; congruence].
    destruct (select m y) as [y'|e] eqn:EY; cbn [bind]; [|exists e; split; [reflexivity|right]; unfold select in EY; destruct (_ =? _)%nat; congruence].
    apply select_length in EX. apply select_length in EY. exfalso. apply D. lia.
  - exists e. split; [reflexivity|left]. unfold bcast in E. destruct (_ =? _)%nat; [congruence|]. destruct (map _ x) as [|u [|u' l]], (map _ y) as [|w [|w' l']]; congruence.
Qed.
Lemma doubles_differ x y check r : remove_doubles_xy x y check = Ok r -> length x = length y.
Proof.
  unfold remove_doubles_xy. destruct (if check then _ else _) as [u|e]; [|discriminate]. cbn [bind]. destruct (doubles_mask x) as [m|e]; [|discriminate]. cbn [bind].
  destruct (select m x) as [x'|e] eqn:EX; [|discriminate]. cbn [bind]. destruct (select m y) as [y'|e] eqn:EY; [|discriminate]. intros _. apply select_length in EX. apply select_length in EY. lia.
Qed.

From Coq Require Import Permutation.
From Verif Require Import Spec_CleanData.
Lemma pyget_bound {A} (l : list A) k : ((k < length l)%nat -> exists a, pyget l (Z.of_nat k) = Ok a) /\ ((length l <= k)%nat -> pyget l (Z.of_nat k) = Err IndexError).
Proof.
  split; intros H.
  - destruct l as [|a l]; [cbn in H; lia|]. rewrite (pyget_nth _ _ a) by lia. eauto.
  - unfold pyget, pyidx. destruct (Z.ltb_spec (Z.of_nat k) 0); [lia|]. destruct (Z.leb_spec 0 (Z.of_nat k)); [|lia]. destruct (Z.ltb_spec (Z.of_nat k) (Z.of_nat (length l))); [lia|]. reflexivity.
Qed.
Lemma take_ok {A} (l : list A) idx : (forall k, In k idx -> (k < length l)%nat) -> exists r, take l idx = Ok r /\ length r = length idx.
Proof.
  induction idx as [|k idx IH]; intros H; [exists []; split; reflexivity|]. destruct (proj1 (pyget_bound l k) (H k (or_introl eq_refl))) as [a E]. destruct IH as [r [E2 L]]; [intros j J; apply H; now right|].
  exists (a :: r). unfold take in *. cbn [mapM]. rewrite E. cbn [bind]. rewrite E2. cbn [bind length]. split; [reflexivity|lia].
Qed.
Lemma take_err {A} (l : list A) idx k : In k idx -> (length l <= k)%nat -> take l idx = Err IndexError.
Proof.
  induction idx as [|j idx IH]; intros I K; [destruct I|]. unfold take in *. cbn [mapM]. destruct (Nat.le_gt_cases (length l) j) as [J|J]; [now rewrite (proj2 (pyget_bound l j) J)|].
  destruct (proj1 (pyget_bound l j) J) as [a ->]. cbn [bind]. destruct I as [->|I]; [lia|]. now rewrite (IH I K).
Qed.
Lemma sort_differ argsort x y : sorting argsort ->
  ((length y < length x)%nat -> sort_xy argsort x y = Err IndexError) /\
  ((length x <= length y)%nat -> exists x' y', sort_xy argsort x y = Ok (x', y') /\ length x' = length x /\ length y' = length x).
Proof.
  intros S. destruct (S x) as [P _]. assert (M : forall k, In k (argsort x) <-> (k < length x)%nat). { intros k. split; intros H; [apply (Permutation_in _ P), in_seq in H; lia|apply (Permutation_in _ (Permutation_sym P)), in_seq; lia]. }
  pose proof (Permutation_length P) as LP. rewrite seq_length in LP. unfold sort_xy. destruct (take_ok x (argsort x)) as [x' [EX LX]]; [intros k K; now apply M|]. rewrite EX. cbn [bind]. split; intros L.
  - rewrite (take_err y (argsort x) (length y)); [reflexivity|apply M; assumption|lia].
  - destruct (take_ok y (argsort x)) as [y' [EY LY]]; [intros k K; apply M in K; lia|]. rewrite EY. cbn [bind]. exists x', y'. split; [reflexivity|]. split; lia.
Qed.
