(** Proofs about the drive-level search and the grid search of impedance recovery. *)
From Coq Require Import List ZArith Reals Lra Lia Bool Arith Classical_Prop.
From Coquelicot Require Import Coquelicot.
From Verif Require Import Base Float NumPy Model_QtCurrent Model_CleanData Model_RespFn Model_Tucker Model_IVData Model_ExpData Spec_QtCurrent Spec_CleanData Spec_IVData Spec_ExpData Proof_NumPy Proof_Circuit Proof_HB Proof_HB2 Proof_RespFn2 Proof_CleanData Proof_IVModels Proof_IVLoad Proof_IVData Proof_IVCurve Proof_Recover.
Import ListNotations.
Open Scope R_scope.
Local Notation length := List.length.
Local Notation Forall := List.Forall.

Lemma ok_inj {A} (a b : A) : Ok a = Ok b -> a = b.
Proof. congruence. Qed.

Lemma quad_inj {A B D E} (a a' : A) (b b' : B) (c c' : D) (d d' : E) : (a, b, c, d) = (a', b', c', d') -> a = a' /\ b = b' /\ c = c' /\ d = d'.
Proof. intros H. injection H. auto. Qed.

(** ** Drive level *)
Lemma clamp a : (if Rltb a 0 then 0 else a) = Rmax 0 a.
Proof. unfold Rmax. destruct (Rltb_spec a 0), (Rle_dec 0 a); lra. Qed.
Lemma iter_step f i a s n : snd (Nat.iter n (refine f i) (a, s)) = s / 2 ^ n.
Proof.
  induction n as [|n IH]; cbn [Nat.iter nat_rect]; [cbn [snd pow]; field|]. fold (Nat.iter n (refine f i) (a, s)). destruct (Nat.iter n (refine f i) (a, s)) as [a' s'] eqn:E. cbn [snd] in IH.
  cbn [refine]. cbn [snd]. rewrite IH. cbn [pow]. field. apply pow_nonzero. lra.
Qed.
Lemma iter_nonneg f i a s n : 0 <= a -> 0 <= fst (Nat.iter n (refine f i) (a, s)).
Proof.
  intros H. induction n as [|n IH]; cbn [Nat.iter nat_rect]; [assumption|]. fold (Nat.iter n (refine f i) (a, s)). destruct (Nat.iter n (refine f i) (a, s)) as [a' s']. cbn [refine fst]. rewrite clamp. apply Rmax_l.
Qed.
Lemma half_pow n : 0 < / 2 ^ n.
Proof. apply Rinv_0_lt_compat, pow_lt. lra. Qed.
Lemma half_pow_le n : / 2 ^ n <= 1.
Proof. induction n as [|n IH]; cbn [pow]; [lra|]. rewrite Rinv_mult_distr by (try apply pow_nonzero; lra). pose proof (half_pow n). lra. Qed.
Lemma iter_converges f i a s t n : 0 <= a -> 0 <= s -> 0 <= t -> Rabs (a - t) <= 2 * s ->
  (forall x, 0 <= x <= t + 2 * s -> (x < t -> f x < i) /\ (t < x -> i < f x)) -> f t = i ->
  Rabs (fst (Nat.iter n (refine f i) (a, s)) - t) <= 2 * s / 2 ^ n.
Proof.
  intros Ha Hs Ht H F FT. induction n as [|n IH]; cbn [Nat.iter nat_rect]; [cbn [fst pow]; replace (2 * s / 1) with (2 * s) by field; assumption|].
  pose proof (iter_step f i a s n) as ES. pose proof (iter_nonneg f i a s n Ha) as NN. unfold Nat.iter in *. destruct (nat_rect _ _ _ n) as [a' s'] eqn:E. cbn [fst snd] in *. subst s'.
  pose proof (half_pow n) as P. pose proof (half_pow_le n) as Q. set (h := s / 2 ^ n) in *. replace (2 * s / 2 ^ n) with (2 * h) in IH by (unfold h, Rdiv; ring).
  assert (Hh : 0 <= h <= s) by (unfold h, Rdiv; split; [apply Rmult_le_pos; lra|rewrite <- (Rmult_1_r s) at 2; apply Rmult_le_compat_l; lra]).
  replace (2 * s / 2 ^ S n) with h by (unfold h; cbn [pow]; field; apply pow_nonzero; lra).
  assert (B : 0 <= a' <= t + 2 * s) by (apply Rabs_le_between in IH; lra). destruct (F a' B) as [F1 F2]. cbn [refine]. cbn [fst]. rewrite clamp.
  assert (G : forall x, Rabs (x - t) <= h -> Rabs (Rmax 0 x - t) <= h).
  { intros x Hx. apply Rabs_le_between in Hx. apply Rabs_le_between. unfold Rmax. destruct (Rle_dec 0 x); lra. }
  apply G. apply Rabs_le_between in IH. apply Rabs_le_between.
  destruct (Rltb_spec 0 (f a' - i)) as [L|L]; [|destruct (Rltb_spec (f a' - i) 0) as [L'|L']].
  - assert (t < a'). { destruct (Rlt_or_le t a'); [assumption|]. destruct H0 as [H0|H0]; [specialize (F1 H0); lra|subst; lra]. } lra.
  - assert (a' < t). { destruct (Rlt_or_le a' t); [assumption|]. destruct H0 as [H0|H0]; [specialize (F2 H0); lra|subst; lra]. } lra.
  - assert (a' = t). { destruct (Rtotal_order a' t) as [K|[K|K]]; [specialize (F1 K); lra|assumption|specialize (F2 K); lra]. } lra.
Qed.
Lemma iter_reach f i a s n : 0 <= a -> 0 <= s -> Rabs (fst (Nat.iter n (refine f i) (a, s)) - a) <= 2 * s * (1 - / 2 ^ n).
Proof.
  intros Ha Hs. induction n as [|n IH]; cbn [Nat.iter nat_rect]; [cbn [fst pow]; rewrite Rminus_diag_eq, Rabs_R0 by reflexivity; lra|].
  pose proof (iter_step f i a s n) as ES. pose proof (iter_nonneg f i a s n Ha) as NN. unfold Nat.iter in *. destruct (nat_rect _ _ _ n) as [a' s'] eqn:E. cbn [fst snd] in *. subst s'.
  pose proof (half_pow n) as P. assert (Hh : 0 <= s / 2 ^ n) by (apply Rmult_le_pos; lra). cbn [refine]. cbn [fst]. rewrite clamp.
  replace (2 * s * (1 - / 2 ^ S n)) with (2 * s * (1 - / 2 ^ n) + s / 2 ^ n) by (cbn [pow]; field; apply pow_nonzero; lra).
  assert (G : forall x, Rabs (x - a) <= 2 * s * (1 - / 2 ^ n) + s / 2 ^ n -> Rabs (Rmax 0 x - a) <= 2 * s * (1 - / 2 ^ n) + s / 2 ^ n).
  { intros x Hx. apply Rabs_le_between in Hx. apply Rabs_le_between. unfold Rmax. destruct (Rle_dec 0 x); lra. }
  apply G. apply Rabs_le_between in IH. apply Rabs_le_between. destruct (Rltb 0 (f a' - i)), (Rltb (f a' - i) 0); lra.
Qed.

Section Alpha.
Variable J : nat -> R -> R.
Variable idc : R -> R.
Variables vph amax : R.
Variable nb : nat.
Definition guess (v i : R) : R := Rmax 0 ((i - idc v) / (pumped_iv J idc vph amax nb v - idc v) * amax).
Lemma first_ok v i g : first_alpha J idc vph amax nb v i = Ok g <-> pumped_iv J idc vph amax nb v <> idc v /\ g = guess v i.
Proof.
  unfold first_alpha, guess. split.
  - intros H. apply bind_ok in H. destruct H as [r [E H]]. apply quot_ok in E. destruct E as [N ->]. injection H as <-. rewrite clamp. split; [lra|reflexivity].
  - intros [N ->]. rewrite quot_eq by lra. cbn [bind]. now rewrite clamp.
Qed.
Lemma alpha_nth v i l : length v = length i -> find_alpha J idc v i vph amax nb = Ok l ->
  length l = length v /\ forall k, (k < length v)%nat -> pumped_iv J idc vph amax nb (nth k v 0) <> idc (nth k v 0) /\
    nth k l 0 = fst (Nat.iter 15 (refine (fun a => pumped_iv J idc vph a nb (nth k v 0)) (nth k i 0)) (guess (nth k v 0) (nth k i 0), amax / 4)).
Proof.
  intros L H. unfold find_alpha in H. rewrite bcast_eq in H by assumption. cbn [bind] in H. apply mapM_nth in H. destruct H as [HL HN]. rewrite zipwith_length in HL by assumption.
  split; [assumption|]. intros k Hk. specialize (HN k (nth k v 0, nth k i 0)). destruct HN as [y [Hy E]].
  { rewrite (nth_error_nth' _ (0, 0)) by (rewrite zipwith_length; assumption). f_equal. now apply nth_zipwith. }
  apply bind_ok in E. destruct E as [g [E EY]]. cbn [fst snd] in E. apply first_ok in E. destruct E as [N ->]. split; [assumption|]. apply ok_inj in EY. cbn [fst snd] in EY.
  rewrite (nth_error_nth _ _ 0 Hy). now rewrite <- EY.
Qed.
End Alpha.

Lemma guess_nonneg J idc vph amax nb v i : 0 <= guess J idc vph amax nb v i.
Proof. apply Rmax_l. Qed.

Theorem alpha_nonneg J idc v i vph amax nb l : length v = length i -> find_alpha J idc v i vph amax nb = Ok l ->
  length l = length v /\ forall k, (k < length v)%nat -> 0 <= nth k l 0.
Proof.
  intros L H. destruct (alpha_nth _ _ _ _ _ _ _ _ L H) as [E F]. split; [assumption|]. intros k Hk. destruct (F k Hk) as [_ ->]. apply iter_nonneg, guess_nonneg.
Qed.
Theorem alpha_converges J idc v i vph amax nb l k t : length v = length i -> find_alpha J idc v i vph amax nb = Ok l -> 0 < amax -> (k < length v)%nat -> 0 <= t ->
  pumped_iv J idc vph t nb (nth k v 0) = nth k i 0 -> increasing_on (fun a => pumped_iv J idc vph a nb (nth k v 0)) 0 (t + amax / 2) ->
  Rabs (Rmax 0 ((nth k i 0 - idc (nth k v 0)) / (pumped_iv J idc vph amax nb (nth k v 0) - idc (nth k v 0)) * amax) - t) <= amax / 2 ->
  Rabs (nth k l 0 - t) <= amax / 2 ^ 16.
Proof.
  intros L H A K T FT I G. destruct (alpha_nth _ _ _ _ _ _ _ _ L H) as [E F]. destruct (F k K) as [_ ->].
  replace (amax / 2 ^ 16) with (2 * (amax / 4) / 2 ^ 15) by (cbn [pow]; field). apply iter_converges; try assumption; [apply guess_nonneg|lra|fold (guess J idc vph amax nb (nth k v 0) (nth k i 0)) in G; lra|].
  intros x Hx. rewrite <- FT. split; intros Hlt; apply I; lra.
Qed.
Theorem alpha_reach J idc v i vph amax nb l k : length v = length i -> find_alpha J idc v i vph amax nb = Ok l -> 0 < amax -> (k < length v)%nat ->
  Rabs (nth k l 0 - Rmax 0 ((nth k i 0 - idc (nth k v 0)) / (pumped_iv J idc vph amax nb (nth k v 0) - idc (nth k v 0)) * amax)) < amax / 2.
Proof.
  intros L H A K. destruct (alpha_nth _ _ _ _ _ _ _ _ L H) as [E F]. destruct (F k K) as [_ ->].
  pose proof (iter_reach (fun a => pumped_iv J idc vph a nb (nth k v 0)) (nth k i 0) (guess J idc vph amax nb (nth k v 0) (nth k i 0)) (amax / 4) 15 (guess_nonneg _ _ _ _ _ _ _) ltac:(lra)) as R.
  unfold guess in *. eapply Rle_lt_trans; [exact R|]. pose proof (half_pow 15). assert (0 < amax / 2 * / 2 ^ 15) by (apply Rmult_lt_0_compat; lra). lra.
Qed.

(** ** Grid search *)
Lemma mapM_fun {A B} (f : A -> res B) g l : (forall x, f x = Ok (g x)) -> mapM f l = Ok (map g l).
Proof. intros H. induction l as [|x l IH]; [reflexivity|]. cbn [mapM]. now rewrite H, IH. Qed.
Lemma nth_concat {A} (rows : list (list A)) m d k : (0 < m)%nat -> Forall (fun r => length r = m) rows -> nth k (List.concat rows) d = nth (k mod m) (nth (k / m) rows []) d.
Proof.
  intros M F. revert k. induction F as [|r rows Hr F IH]; intros k; cbn [List.concat].
  - destruct k, (_ / _)%nat, (_ mod _)%nat; reflexivity.
  - destruct (Nat.lt_ge_cases k m) as [L|G].
    + rewrite Nat.div_small, Nat.mod_small by assumption. rewrite app_nth1 by (cbn beta in Hr; rewrite Hr; assumption). reflexivity.
    + cbn beta in Hr. rewrite app_nth2 by (rewrite Hr; assumption). rewrite Hr, IH. assert (D : (k / m = S ((k - m) / m))%nat) by (rewrite <- (Nat.add_1_r (_ / _)), <- Nat.div_add by lia; f_equal; lia). assert (D' : (k mod m = (k - m) mod m)%nat) by (rewrite <- (Nat.mod_add (k - m) 1) by lia; f_equal; lia). rewrite D, D'. reflexivity.
Qed.
Lemma concat_length {A} (rows : list (list A)) m : Forall (fun r => length r = m) rows -> length (List.concat rows) = (length rows * m)%nat.
Proof. intros F. induction F as [|r rows Hr F IH]; [reflexivity|]. cbn [List.concat List.length]. rewrite app_length, Hr, IH. reflexivity. Qed.
Lemma argmin_nan l : fargmin (FNaN :: l) = Ok 0%nat.
Proof. cbn [fargmin]. f_equal. generalize 1%nat. induction l as [|a l IH]; intros n; [reflexivity|]. cbn [fargmin_from fisnan negb andb]. apply IH. Qed.

Definition the_error (v : list C) (z : list (option C)) (zs : C) : fl := match error_function v z zs with Ok e => e | Err _ => FNaN end.
Lemma error_total v z zs : length v = length z -> error_function v z zs = Ok (the_error v z zs).
Proof. intros H. unfold the_error, error_function. rewrite bcast_eq by assumption. reflexivity. Qed.

Lemma grid_nth q i j : (i <= 100)%nat -> (j <= 200)%nat ->
  (nth i (linspace (fst (r_remb q)) (snd (r_remb q)) 101) 0, nth j (linspace (fst (r_xemb q)) (snd (r_xemb q)) 201) 0) = grid_point (r_remb q) (r_xemb q) i j.
Proof.
  intros I K. rewrite !linspace_nth by lia. unfold grid_point. replace (INR (101 - 1)) with 100 by (cbn [Nat.sub]; rewrite INR_IZR_INZ; f_equal; reflexivity).
  replace (INR (201 - 1)) with 200 by (cbn [Nat.sub]; rewrite INR_IZR_INZ; f_equal; reflexivity). reflexivity.
Qed.

Section Grid.
Variables (v : list C) (z : list (option C)) (q : recparams).
Hypothesis L : length v = length z.
Let zr := linspace (fst (r_remb q)) (snd (r_remb q)) 101.
Let zi := linspace (fst (r_xemb q)) (snd (r_xemb q)) 201.
Let surf := map (fun a => map (fun b => the_error v z (a, b)) zi) zr.
Lemma surf_ok : mapM (fun a => mapM (fun b => error_function v z (a, b)) zi) zr = Ok surf.
Proof. apply mapM_fun. intros a. apply mapM_fun. intros b. now apply error_total. Qed.
Lemma surf_rows : Forall (fun r => length r = 201%nat) surf.
Proof. apply Forall_forall. intros r H. apply in_map_iff in H. destruct H as [a [<- _]]. rewrite map_length. apply linspace_length. Qed.
Lemma surf_nth i j : (i <= 100)%nat -> (j <= 200)%nat -> nth j (nth i surf []) FNaN = the_error v z (grid_point (r_remb q) (r_xemb q) i j).
Proof.
  intros I K. unfold surf. rewrite (nth_map_in _ zr i [] 0) by (unfold zr; rewrite linspace_length; lia).
  rewrite (nth_map_in _ zi j FNaN 0) by (unfold zi; rewrite linspace_length; lia). f_equal. now apply grid_nth.
Qed.
Lemma surf_length : length (List.concat surf) = (101 * 201)%nat.
Proof. rewrite (concat_length _ 201) by apply surf_rows. unfold surf. rewrite map_length. unfold zr. now rewrite linspace_length. Qed.
Lemma surf_flat k : nth k (List.concat surf) FNaN = nth (k mod 201) (nth (k / 201) surf []) FNaN.
Proof. apply nth_concat; [lia|apply surf_rows]. Qed.

Lemma grid_inv s zt vt fit : grid_search v z q = Ok (s, zt, vt, fit) -> exists k, fargmin (List.concat surf) = Ok k /\ s = surf /\
  zt = match r_zemb q with None => (nth (k / 201) zr 0, nth (k mod 201) zi 0) | Some z => z end /\
  find_source_voltage v z zt = Ok vt /\ fit = fle (nth (k mod 201) (nth (k / 201) surf []) FNaN) (FV good_error).
Proof.
  unfold grid_search. fold zr zi. rewrite surf_ok. cbn [bind]. intros H. apply bind_ok in H. destruct H as [k [E H]]. apply bind_ok in H. destruct H as [x [E' H]]. apply ok_inj, quad_inj in H. destruct H as [<- [<- [<- <-]]]. exists k. split; [exact E|]. split; [reflexivity|]. split; [reflexivity|]. split; [exact E'|reflexivity].
Qed.
Lemma grid_number : (forall i j, (i <= 100)%nat -> (j <= 200)%nat -> number (the_error v z (grid_point (r_remb q) (r_xemb q) i j))) ->
  exists i j, (i <= 100)%nat /\ (j <= 200)%nat /\ fargmin (List.concat surf) = Ok (i * 201 + j)%nat /\
  forall i' j', (i' <= 100)%nat -> (j' <= 200)%nat -> fle (the_error v z (grid_point (r_remb q) (r_xemb q) i j)) (the_error v z (grid_point (r_remb q) (r_xemb q) i' j')) = true.
Proof.
  intros N. assert (DM : forall k, (k < 101 * 201)%nat -> (k / 201 <= 100)%nat /\ (k mod 201 <= 200)%nat).
  { intros k Hk. split; [apply Nat.lt_succ_r, Nat.div_lt_upper_bound; lia|apply Nat.lt_succ_r, Nat.mod_upper_bound; lia]. }
  destruct (argmin_first (List.concat surf)) as [k [E [K [M _]]]].
  - intros H. pose proof surf_length as S. rewrite H in S. discriminate.
  - apply Forall_forall. intros x Hx. apply (In_nth _ _ FNaN) in Hx. destruct Hx as [k [Hk <-]]. rewrite surf_length in Hk. rewrite surf_flat. destruct (DM k Hk). rewrite surf_nth by assumption. now apply N.
  - rewrite surf_length in *. destruct (DM k K) as [D1 D2]. exists (k / 201)%nat, (k mod 201)%nat. split; [assumption|]. split; [assumption|]. split; [rewrite E; f_equal; pose proof (Nat.div_mod k 201); lia|].
    intros i' j' I' J'. assert (B : (i' * 201 + j' < 101 * 201)%nat) by nia. specialize (M (i' * 201 + j')%nat B). rewrite !surf_flat in M.
    replace ((i' * 201 + j') / 201)%nat with i' in M by (apply (Nat.div_unique _ _ _ j'); lia). replace ((i' * 201 + j') mod 201)%nat with j' in M by (apply (Nat.mod_unique _ _ i'); lia).
    now rewrite !surf_nth in M by assumption.
Qed.
End Grid.
