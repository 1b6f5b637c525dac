(** Proofs about gauss_conv. *)
From Coq Require Import List ZArith Lia Bool Arith Reals Lra.
From Verif Require Import Base Model_QtCurrent Proof_Circuit Float NumPy Proof_NumPy Spec_MathFn Model_MathFn.
Import ListNotations.
Open Scope R_scope.

Lemma gauss_length s e : length (gauss s e) = Z.to_nat (Zceil (2 * (e * s) + / 10 ^ 5)).
Proof. unfold gauss, arange1. rewrite !map_length, seq_length. do 2 f_equal. ring. Qed.
Lemma gauss_points s e m : 1 <= s * e -> window_points (s * e) m -> length (gauss s e) = m.
Proof.
  intros H [A B]. rewrite gauss_length. rewrite INR_IZR_INZ in A, B. rewrite (Zceil_unique _ (Z.of_nat m)); [lia|]. rewrite (Rmult_comm e). lra.
Qed.
Lemma points_exist r : 1 <= r -> exists m, window_points r m /\ (3 <= m)%nat.
Proof.
  intros H. pose proof (Zceil_spec (2 * r + / 10 ^ 5)) as S. exists (Z.to_nat (Zceil (2 * r + / 10 ^ 5))).
  assert (P : 0 < / 10 ^ 5) by (apply Rinv_0_lt_compat, pow_lt; lra).
  assert (L : (2 < Zceil (2 * r + / 10 ^ 5))%Z) by (apply lt_IZR; lra).
  split; [|lia]. unfold window_points. rewrite INR_IZR_INZ, Z2Nat.id by lia. lra.
Qed.
Lemma points_unique r m m' : window_points r m -> window_points r m' -> m = m'.
Proof.
  unfold window_points. rewrite !INR_IZR_INZ. intros A B. assert (X : IZR (Z.of_nat m) < IZR (Z.of_nat m' + 1)) by (rewrite plus_IZR; lra). assert (Y : IZR (Z.of_nat m') < IZR (Z.of_nat m + 1)) by (rewrite plus_IZR; lra). apply lt_IZR in X, Y. lia.
Qed.
Lemma gauss_nth s e j : (j < length (gauss s e))%nat -> nth j (gauss s e) 0 = 1 / (s * sqrt (2 * PI)) * bell s (INR j - s * e).
Proof.
  intros H. rewrite gauss_length in H. unfold gauss, arange1. rewrite map_map, nth_map_seq; [|replace (e * s + / 10 ^ 5 - - (e * s)) with (2 * (e * s) + / 10 ^ 5) by ring; assumption].
  unfold bell. do 2 f_equal. f_equal. f_equal. f_equal. ring.
Qed.
Lemma gauss_scale s : s <> 0 -> 1 / (s * sqrt (2 * PI)) <> 0.
Proof.
  intros H. unfold Rdiv. rewrite Rmult_1_l. apply Rinv_neq_0_compat. intros K. apply Rmult_integral in K. destruct K as [K|K]; [lra|].
  apply sqrt_eq_0 in K; pose proof PI_RGT_0; lra.
Qed.
Lemma bell_pos s d : 0 < bell s d.
Proof. apply exp_pos. Qed.
Lemma bell_sym s d : bell s (- d) = bell s d.
Proof. unfold bell. f_equal. f_equal. unfold Rdiv. ring. Qed.

(** The extended data. *)
Lemma pad_left (x : list R) m : (1 <= m <= length x)%nat ->
  pyslice_rev x (Z.of_nat m - 1) 0 = map (fun k => nth (m - 1 - k) x 0) (seq 0 (m - 1)).
Proof.
  intros H. assert (E1 : rev_bound (length x) (Z.of_nat m - 1) = (Z.of_nat m - 1)%Z) by (unfold rev_bound; destruct (Z.ltb_spec (Z.of_nat m - 1) 0); lia).
  assert (E2 : rev_bound (length x) 0 = 0%Z) by (unfold rev_bound; destruct (Z.ltb_spec 0 0); lia).
  rewrite (pyslice_rev_map x _ _ 0) by lia. rewrite E1, E2. replace (Z.to_nat (Z.of_nat m - 1 - 0)) with (m - 1)%nat by lia. apply map_ext. intros. f_equal. lia.
Qed.
Lemma pad_right (x : list R) m : (2 <= m <= length x)%nat ->
  pyslice_rev x (-2) (- Z.of_nat m - 1) = map (fun k => nth (length x - 2 - k) x 0) (seq 0 (m - 1)).
Proof.
  intros H. assert (E1 : rev_bound (length x) (-2) = (Z.of_nat (length x) - 2)%Z) by (unfold rev_bound; destruct (Z.ltb_spec (-2) 0); lia).
  assert (E2 : rev_bound (length x) (- Z.of_nat m - 1) = (Z.of_nat (length x) - Z.of_nat m - 1)%Z) by (unfold rev_bound; destruct (Z.ltb_spec (- Z.of_nat m - 1) 0); lia).
  rewrite (pyslice_rev_map x _ _ 0) by lia. rewrite E1, E2.
  replace (Z.to_nat (Z.of_nat (length x) - 2 - (Z.of_nat (length x) - Z.of_nat m - 1))) with (m - 1)%nat by lia. apply map_ext. intros. f_equal. lia.
Qed.
Lemma padded (x : list R) m i : (2 <= m <= length x)%nat -> (i < length x + 2 * (m - 1))%nat ->
  nth i (pyslice_rev x (Z.of_nat m - 1) 0 ++ x ++ pyslice_rev x (-2) (- Z.of_nat m - 1)) 0 = nth (mirror (length x) (Z.of_nat i - (Z.of_nat m - 1))) x 0.
Proof.
  intros H Hi. rewrite pad_left, pad_right by lia. unfold mirror.
  destruct (Z.ltb_spec (Z.of_nat i - (Z.of_nat m - 1)) 0).
  - rewrite app_nth1 by (rewrite map_length, seq_length; lia). rewrite nth_map_seq by lia. f_equal. lia.
  - rewrite app_nth2 by (rewrite map_length, seq_length; lia). rewrite map_length, seq_length.
    destruct (Z.leb_spec (Z.of_nat (length x)) (Z.of_nat i - (Z.of_nat m - 1))).
    + rewrite app_nth2 by lia. rewrite nth_map_seq by lia. f_equal. lia.
    + rewrite app_nth1 by lia. f_equal. lia.
Qed.
Lemma padded_length (x : list R) m : (2 <= m <= length x)%nat ->
  length (pyslice_rev x (Z.of_nat m - 1) 0 ++ x ++ pyslice_rev x (-2) (- Z.of_nat m - 1)) = (length x + 2 * (m - 1))%nat.
Proof. intros H. rewrite pad_left, pad_right, !app_length, !map_length, !seq_length by lia. lia. Qed.

Lemma conv_accepts x s e : gauss_conv x s e <> Err AssertionError <-> exists m, 1 <= s * e /\ window_points (s * e) m /\ (m <= length x)%nat.
Proof.
  unfold gauss_conv. cbv zeta. split.
  - intros H. destruct (Rle_dec 1 (s * e)) as [L|L].
    + destruct (points_exist (s * e) L) as [m [W M]]. exists m. split; [assumption|]. split; [assumption|]. rewrite (gauss_points s e m L W) in H.
      destruct (Z.leb_spec (Z.of_nat m) (Z.of_nat (length x))); [lia|]. simpl in H. now contradict H.
    + exfalso. unfold guard in H. destruct (_ <=? _)%Z; [|now apply H]. simpl in H. unfold Rleb in H. destruct (Rle_dec 1 (s * e)); [lra|]. now apply H.
  - intros [m [L [W M]]]. rewrite (gauss_points s e m L W). destruct (Z.leb_spec (Z.of_nat m) (Z.of_nat (length x))); [|lia]. simpl.
    unfold Rleb. destruct (Rle_dec 1 (s * e)); [|lra]. simpl. discriminate.
Qed.
Lemma conv_ok x s e : (exists y, gauss_conv x s e = Ok y) <-> exists m, 1 <= s * e /\ window_points (s * e) m /\ (m <= length x)%nat.
Proof.
  rewrite <- conv_accepts. unfold gauss_conv, guard. cbv zeta. destruct (_ <=? _)%Z; [|simpl; split; [intros [y K]; discriminate|intros K; now contradict K]]. simpl.
  destruct (Rleb 1 (s * e)); simpl; [split; [discriminate|eauto]|split; [intros [y K]; discriminate|intros K; now contradict K]].
Qed.
Lemma conv_err x s e er : gauss_conv x s e = Err er -> er = AssertionError.
Proof. unfold gauss_conv, guard. cbv zeta. destruct (_ <=? _)%Z; simpl; [destruct (Rleb 1 (s * e)); simpl|]; congruence. Qed.

Definition norm_weight (s e : R) (m j : nat) : R := bell s (INR j - s * e) / nsum m (fun j => bell s (INR j - s * e)).
Lemma weights_sum s e m : (1 <= m)%nat -> nsum m (norm_weight s e m) = 1.
Proof.
  intros H. unfold norm_weight. rewrite (nsum_ext m _ (fun j => / nsum m (fun j => bell s (INR j - s * e)) * bell s (INR j - s * e))) by (intros; unfold Rdiv; ring).
  rewrite nsum_scal. apply Rinv_l. apply Rgt_not_eq. apply nsum_pos; [lia|]. intros; apply bell_pos.
Qed.
Lemma weight_pos s e m j : (1 <= m)%nat -> 0 < norm_weight s e m j.
Proof. intros H. apply Rdiv_lt_0_compat; [apply bell_pos|]. apply nsum_pos; [lia|]. intros; apply bell_pos. Qed.

Lemma conv_formula x s e m y : gauss_conv x s e = Ok y -> window_points (s * e) m ->
  length y = length x /\
  forall k, (k < length x)%nat ->
    nth k y 0 = nsum m (fun j => norm_weight s e m j * nth (mirror (length x) (Z.of_nat k + Z.of_nat (m / 2) - Z.of_nat j)) x 0).
Proof.
  intros H W. assert (E : exists y, gauss_conv x s e = Ok y) by eauto. apply conv_ok in E. destruct E as [m' [L [W' M]]]. rewrite (points_unique _ _ _ W' W) in *. clear m' W'.
  destruct (points_exist _ L) as [m' [W' M3]]. rewrite (points_unique _ _ _ W' W) in *. clear m' W'.
  unfold gauss_conv in H. cbv zeta in H. rewrite (gauss_points s e m L W) in H.
  destruct (Z.leb_spec (Z.of_nat m) (Z.of_nat (length x))); [|lia]. cbn [guard bind] in H.
  unfold Rleb in H. destruct (Rle_dec 1 (s * e)); [|lra]. cbn [guard bind] in H. injection H as <-.
  set (wn := map (fun a => a / lsum (gauss s e)) (gauss s e)). set (sx := pyslice_rev x (Z.of_nat m - 1) 0 ++ x ++ pyslice_rev x (-2) (- Z.of_nat m - 1)).
  assert (LW : length wn = m) by (unfold wn; rewrite map_length; now apply gauss_points).
  assert (LS : length sx = (length x + 2 * (m - 1))%nat) by (unfold sx; apply padded_length; lia).
  assert (LC : length (convolve_valid wn sx) = (length x + m - 1)%nat) by (unfold convolve_valid; rewrite map_length, seq_length, LS, LW; lia).
  assert (HI : (- Z.of_nat m / 2 + 1 < 0)%Z) by (apply Z.lt_add_lt_sub_r; apply Z.div_lt_upper_bound; lia).
  assert (DV : (- Z.of_nat m / 2 = - (Z.of_nat m - Z.of_nat m / 2))%Z).
  { pose proof (Z.div_mod (- Z.of_nat m) 2 ltac:(lia)). pose proof (Z.mod_pos_bound (- Z.of_nat m) 2 ltac:(lia)).
    pose proof (Z.div_mod (Z.of_nat m) 2 ltac:(lia)). pose proof (Z.mod_pos_bound (Z.of_nat m) 2 ltac:(lia)). lia. }
  assert (D2 : (Z.of_nat m / 2 = Z.of_nat (m / 2))%Z) by (rewrite Nat2Z.inj_div; reflexivity).
  assert (HM : (m / 2 < m)%nat) by (apply Nat.div_lt; lia).
  assert (LY : length (pyslice (convolve_valid wn sx) (Some (Z.of_nat m / 2)%Z) (Some (- Z.of_nat m / 2 + 1)%Z)) = length x).
  { rewrite pyslice_length, LC, slice_neg by assumption. rewrite slice_pos by (rewrite D2; lia). rewrite DV, D2. lia. }
  split; [exact LY|]. intros k Hk. rewrite nth_pyslice by (rewrite LY; assumption). rewrite slice_pos by (rewrite D2; lia). rewrite LC, D2, Nat2Z.id. rewrite Nat.min_r by lia.
  unfold convolve_valid. rewrite nth_map_seq by (rewrite LS, LW; lia). rewrite lsum_map_seq, LW. apply nsum_ext. intros j Hj.
  f_equal.
  - unfold wn. rewrite nth_indep with (d' := 0 / lsum (gauss s e)) by (fold wn; rewrite LW; assumption). rewrite map_nth with (f := fun a => a / lsum (gauss s e)). 
    assert (LG : length (gauss s e) = m) by now apply gauss_points. assert (S0 : s <> 0) by (intros ->; lra).
    rewrite lsum_nth, LG. rewrite gauss_nth by lia. rewrite (nsum_ext m _ (fun i => 1 / (s * sqrt (2 * PI)) * bell s (INR i - s * e))) by (intros; apply gauss_nth; lia).
    rewrite nsum_scal. unfold norm_weight. pose proof (gauss_scale s S0). set (c := 1 / (s * sqrt (2 * PI))) in *.
    assert (P : 0 < nsum m (fun i => bell s (INR i - s * e))) by (apply nsum_pos; [lia|intros; apply bell_pos]). field. split; lra.
  - unfold sx. rewrite padded by lia. do 2 f_equal. lia.
Qed.

Lemma mirror_lt n k : (- Z.of_nat n < k < 2 * Z.of_nat n - 1)%Z -> (mirror n k < n)%nat.
Proof. intros H. unfold mirror. destruct (Z.ltb_spec k 0); [lia|]. destruct (Z.leb_spec (Z.of_nat n) k); lia. Qed.
Lemma mirror_ok n m k j : (m <= n)%nat -> (k < n)%nat -> (j < m)%nat -> (mirror n (Z.of_nat k + Z.of_nat (m / 2) - Z.of_nat j) < n)%nat.
Proof. intros. apply mirror_lt. assert (m / 2 < m)%nat by (apply Nat.div_lt; lia). lia. Qed.

Lemma conv_parts x s e y : gauss_conv x s e = Ok y -> exists m, 1 <= s * e /\ window_points (s * e) m /\ (3 <= m <= length x)%nat.
Proof.
  intros H. assert (E : exists y, gauss_conv x s e = Ok y) by eauto. apply conv_ok in E. destruct E as [m [L [W M]]]. exists m. split; [assumption|]. split; [assumption|].
  destruct (points_exist _ L) as [m' [W' M3]]. rewrite (points_unique _ _ _ W' W) in *. lia.
Qed.

Lemma conv_bounds x s e y lo hi : gauss_conv x s e = Ok y -> Forall (fun v => lo <= v <= hi) x -> Forall (fun v => lo <= v <= hi) y.
Proof.
  intros H F. destruct (conv_parts x s e y H) as [m [L [W M]]]. destruct (conv_formula x s e m y H W) as [LY Y].
  apply Forall_forall. intros v Hv. destruct (In_nth y v 0 Hv) as [k [Hk <-]]. rewrite LY in Hk. rewrite Y by assumption.
  assert (B : forall j, (j < m)%nat -> lo <= nth (mirror (length x) (Z.of_nat k + Z.of_nat (m / 2) - Z.of_nat j)) x 0 <= hi).
  { intros j Hj. rewrite Forall_forall in F. apply F. apply nth_In. apply mirror_ok; lia. }
  pose proof (weights_sum s e m ltac:(lia)) as S. split.
  - rewrite <- (Rmult_1_r lo), <- S, <- nsum_scal. apply nsum_le. intros j Hj. rewrite Rmult_comm. apply Rmult_le_compat_l; [left; apply weight_pos; lia|now apply B].
  - rewrite <- (Rmult_1_r hi), <- S, <- nsum_scal. apply nsum_le. intros j Hj. rewrite (Rmult_comm hi). apply Rmult_le_compat_l; [left; apply weight_pos; lia|now apply B].
Qed.
Lemma conv_length x s e y : gauss_conv x s e = Ok y -> length y = length x.
Proof. intros H. destruct (conv_parts x s e y H) as [m [L [W M]]]. now destruct (conv_formula x s e m y H W). Qed.
Lemma Forall_eq_repeat (c : R) l : Forall (fun v => c <= v <= c) l -> l = repeat c (length l).
Proof. induction 1 as [|v l H F IH]; [reflexivity|]. simpl. rewrite <- IH. f_equal. lra. Qed.
Lemma conv_constant c n s e y : gauss_conv (repeat c n) s e = Ok y -> y = repeat c n.
Proof.
  intros H. assert (B := conv_bounds _ s e y c c H). apply conv_length in H. rewrite repeat_length in H. rewrite <- H. apply Forall_eq_repeat. apply B.
  apply Forall_forall. intros v Hv. apply repeat_spec in Hv. lra.
Qed.

Lemma zip_lin_length a b (x x' : list R) : length x = length x' -> length (zipwith (fun u v => a * u + b * v) x x') = length x.
Proof. apply zipwith_length. Qed.
Lemma conv_linear a b x x' s e y y' : length x = length x' -> gauss_conv x s e = Ok y -> gauss_conv x' s e = Ok y' ->
  gauss_conv (zipwith (fun u v => a * u + b * v) x x') s e = Ok (zipwith (fun u v => a * u + b * v) y y').
Proof.
  intros HL H H'. set (z := zipwith _ x x'). assert (LZ : length z = length x) by (now apply zip_lin_length).
  destruct (conv_parts x s e y H) as [m [L [W M]]].
  assert (E : exists w, gauss_conv z s e = Ok w) by (apply conv_ok; exists m; repeat split; try assumption; try apply W; lia). destruct E as [w E]. rewrite E. f_equal.
  destruct (conv_formula x s e m y H W) as [LY Y], (conv_formula x' s e m y' H' W) as [LY' Y'], (conv_formula z s e m w E W) as [LW' V].
  apply (list_ext _ _ 0).
  - rewrite zipwith_length; lia.
  - intros k Hk. rewrite V by lia. rewrite (nth_zipwith _ _ _ _ 0 0 0) by lia. rewrite Y, Y' by lia. rewrite <- !nsum_scal, <- nsum_plus. apply nsum_ext. intros j Hj.
    unfold z. rewrite (nth_zipwith _ _ _ _ 0 0 0); [rewrite zip_lin_length, <- HL by assumption; ring|assumption|].
    rewrite zip_lin_length by assumption. apply mirror_ok; lia.
Qed.

(** A window with an integer radius M is symmetric. *)
Lemma integer_points M : (1 <= M)%nat -> window_points (INR M) (2 * M + 1).
Proof.
  intros H. unfold window_points. rewrite plus_INR, mult_INR. simpl (INR 2). simpl (INR 1).
  assert (0 < / 10 ^ 5 <= 1). { split; [apply Rinv_0_lt_compat, pow_lt; lra|]. rewrite <- Rinv_1. apply Rinv_le_contravar; [lra|]. rewrite <- (pow1 5). apply pow_incr. lra. }
  lra.
Qed.
Lemma mid M : ((2 * M + 1) / 2 = M)%nat.
Proof. symmetry. apply (Nat.div_unique _ _ _ 1); lia. Qed.

Lemma conv_integer x s e M y : (1 <= M)%nat -> s * e = INR M -> gauss_conv x s e = Ok y ->
  length y = length x /\ forall k, (k < length x)%nat ->
    nth k y 0 = nsum (2 * M + 1) (fun j => bell s (INR j - INR M) * nth (mirror (length x) (Z.of_nat k + Z.of_nat M - Z.of_nat j)) x 0)
                / nsum (2 * M + 1) (fun j => bell s (INR j - INR M)).
Proof.
  intros HM E H. assert (W := integer_points M HM). rewrite <- E in W. destruct (conv_formula x s e _ y H W) as [LY Y]. split; [assumption|].
  intros k Hk. rewrite Y by assumption. unfold Rdiv. rewrite Rmult_comm, <- nsum_scal. apply nsum_ext. intros j Hj. unfold norm_weight. rewrite mid, E. unfold Rdiv. ring.
Qed.

Lemma mirror_flip n k : (1 <= n)%nat -> (- Z.of_nat n < k < 2 * Z.of_nat n - 1)%Z -> mirror n (Z.of_nat n - 1 - k) = (n - 1 - mirror n k)%nat.
Proof. intros Hn H. unfold mirror. destruct (Z.ltb_spec k 0), (Z.ltb_spec (Z.of_nat n - 1 - k) 0), (Z.leb_spec (Z.of_nat n) k), (Z.leb_spec (Z.of_nat n) (Z.of_nat n - 1 - k)); lia. Qed.

Lemma conv_reverse x s e M y : (1 <= M)%nat -> s * e = INR M -> gauss_conv x s e = Ok y -> gauss_conv (rev x) s e = Ok (rev y).
Proof.
  intros HM E H. destruct (conv_parts x s e y H) as [m [L [W M3]]]. assert (W2 := integer_points M HM). rewrite <- E in W2. rewrite (points_unique _ _ _ W W2) in *.
  assert (X : exists w, gauss_conv (rev x) s e = Ok w) by (apply conv_ok; exists (2 * M + 1)%nat; repeat split; try assumption; try apply W2; rewrite rev_length; lia). destruct X as [w X]. rewrite X. f_equal.
  destruct (conv_formula x s e _ y H W2) as [LY Y], (conv_formula (rev x) s e _ w X W2) as [LV V]. rewrite rev_length in *.
  apply (list_ext _ _ 0); [rewrite rev_length; lia|]. intros k Hk. rewrite rev_nth by lia. rewrite V, Y by lia. rewrite mid.
  rewrite <- (nsum_rev (2 * M + 1)). apply nsum_ext. intros j Hj. f_equal.
  - unfold norm_weight. f_equal. rewrite E. replace (INR (2 * M + 1 - 1 - j) - INR M) with (- (INR j - INR M)); [apply bell_sym|].
    rewrite !minus_INR, plus_INR, mult_INR by lia. simpl (INR 1). simpl (INR 2). ring.
  - assert (N0 : (- Z.of_nat (length x) < Z.of_nat k + Z.of_nat M - Z.of_nat (2 * M + 1 - 1 - j) < 2 * Z.of_nat (length x) - 1)%Z) by lia.
    rewrite rev_nth by (apply mirror_lt; lia). f_equal.
    replace (Z.of_nat (length y - S k) + Z.of_nat M - Z.of_nat j)%Z with (Z.of_nat (length x) - 1 - (Z.of_nat k + Z.of_nat M - Z.of_nat (2 * M + 1 - 1 - j)))%Z by lia.
    rewrite mirror_flip by lia. lia.
Qed.

(** A window from -3/2 to 3/2. *)
Lemma half_points : window_points (1 * (3 / 2)) 4.
Proof. unfold window_points. simpl (INR 4). assert (0 < / 10 ^ 5 <= 1). { split; [apply Rinv_0_lt_compat, pow_lt; lra|]. rewrite <- Rinv_1. apply Rinv_le_contravar; [lra|]. rewrite <- (pow1 5). apply pow_incr. lra. } lra. Qed.
Lemma reverse_fails : exists x y y', gauss_conv x 1 (3 / 2) = Ok y /\ gauss_conv (rev x) 1 (3 / 2) = Ok y' /\ y' <> rev y.
Proof.
  set (x := [1; 0; 0; 0]). assert (W := half_points).
  assert (E : forall x, length x = 4%nat -> exists y, gauss_conv x 1 (3 / 2) = Ok y).
  { intros l Hl. apply conv_ok. exists 4%nat. repeat split; try apply W; try lra. lia. }
  destruct (E x eq_refl) as [y Y]. destruct (E (rev x) eq_refl) as [y' Y']. exists x, y, y'. split; [assumption|]. split; [assumption|]. intros K.
  destruct (conv_formula x 1 (3 / 2) 4 y Y W) as [L F], (conv_formula (rev x) 1 (3 / 2) 4 y' Y' W) as [L' F'].
  assert (A : nth 2 y' 0 = nth 1 y 0). { rewrite K, rev_nth by (rewrite L; simpl; lia). rewrite L. reflexivity. }
  rewrite F, F' in A by (simpl; lia). simpl in A.
  set (a := norm_weight 1 (3 / 2) 4 3) in *. set (b := norm_weight 1 (3 / 2) 4 1) in *.
  assert (N : a < b).
  { unfold a, b, norm_weight. apply Rmult_lt_compat_r; [apply Rinv_0_lt_compat, nsum_pos; [lia|intros; apply bell_pos]|]. unfold bell. apply exp_increasing. simpl (INR 3). simpl (INR 1). field_simplify. lra. }
  lra.
Qed.
