(** Proofs about loading IF data. *)
From Coq Require Import List ZArith Bool Lia Reals Lra String Permutation Sorting.
From Verif Require Import Base Model_QtCurrent Proof_Circuit Proof_IVModels Float NumPy Proof_NumPy Spec_CleanData Proof_CleanData Model_CleanData Model_MathFn Proof_Filters Spec_MathFn Spec_RespFn Model_RespFn Proof_RespFn Proof_RespFn2 Spec_IVData Model_IVData Proof_IVLoad Proof_IVData Proof_IVCurve Spec_IFData Model_IFData.
Import ListNotations.
Open Scope R_scope.
Local Notation length := List.length.
Local Notation rising := Spec_RespFn.increasing.

Lemma map_nth_zero (f : R -> R) l k : f 0 = 0 -> nth k (map f l) 0 = f (nth k l 0).
Proof. intros H. rewrite <- H at 1. apply map_nth. Qed.
Definition raw_v (u : R) (m : matrix) : list fl := map (fun r => fmul (nth 0 r FNaN) (FV u)) (rows m).
Definition raw_p (m : matrix) : list fl := map (fun r => nth 1 r FNaN) (rows m).
(** What happens after the data are cleaned. *)
Definition load_rest (dc : dcivdata) (q : ifparams) (v p : list R) : res (list R * list R) :=
  let v := map (fun a => a * q_v_multiplier q) v in
  let v := map (fun a => a - fst (dc_offset dc)) v in
  let* v := if_series v dc (q_rseries q) in
  let* _ := guard (negb (Reqb (dc_vgap dc) 0)) NotModelled in
  let v := map (fun a => a / dc_vgap dc) v in
  let* _ := guard (strictly_increasing v) NotModelled in
  let v_out := linspace 0 (q_vmax q / dc_vgap dc) (q_npts q) in
  let* p_out := np_interp_zero v_out v p in
  let* p_out := if_smooth v_out p_out (dc_vgap dc) (q_sigma q) in
  Ok (v_out, p_out).
Lemma load_if_eq s m dc q u : sorting s -> ncols m = 2%nat -> volts (q_v_fmt q) = Some u ->
  load_if s m dc q = (let* xy := clean_xy s (raw_v u m) (raw_p m) in let* v := reals (fst xy) in let* p := reals (snd xy) in load_rest dc q v p).
Proof.
  intros S NC U. unfold load_if. rewrite NC. cbn [Nat.eqb guard bind]. rewrite vfmt_volts, U. cbn [bind].
  assert (LN : length (raw_v u m) = length (raw_p m)) by (unfold raw_v, raw_p; now rewrite !map_length).
  assert (E : xy_to_matrix (raw_v u m) (raw_p m) = Ok (scale_first u m)).
  { rewrite to_matrix by assumption. f_equal. unfold scale_first. rewrite NC. f_equal. unfold as_rows, raw_v, raw_p. induction (rows m) as [|r l IH]; [reflexivity|]. cbn. now rewrite IH. }
  pose proof (clean_matrix_eq s _ _ S LN) as M. rewrite E in M. cbn [bind] in M. unfold clean_matrix in M. unfold scale_first in M at 1. cbn [ncols] in M. rewrite NC in M. cbn [Nat.eqb guard bind] in M.
  transitivity (let* m1 := (let* m1 := remove_nans_matrix (scale_first u m) in let* m2 := sort_matrix s m1 0 in remove_doubles_matrix m2 0 true) in
    let* v := column m1 0 in let* p := column m1 1 in let* v := reals v in let* p := reals p in load_rest dc q v p).
  { destruct (remove_nans_matrix _); [|reflexivity]. cbn [bind]. destruct (sort_matrix _ _ _); reflexivity. }
  rewrite M. destruct (clean_xy s (raw_v u m) (raw_p m)) as [[x y]|] eqn:C; [|reflexivity]. cbn [bind fst snd].
  pose proof (clean_props s _ _ _ _ S C) as [L _]. rewrite to_matrix by assumption. cbn [bind]. rewrite column0, column1. cbn [bind]. now rewrite combine_fst, combine_snd.
Qed.
Lemma load_if_inv s m dc q r : load_if s m dc q = Ok r -> ncols m = 2%nat /\ exists u, volts (q_v_fmt q) = Some u.
Proof.
  unfold load_if. destruct (Nat.eqb_spec (ncols m) 2) as [NC|NC]; [|discriminate]. cbn [guard bind]. rewrite vfmt_volts. destruct (volts (q_v_fmt q)); [|discriminate]. intros _. split; [assumption|eauto].
Qed.

(** ** Powers multiplied by a factor *)
Definition mul (c : R) (a : fl) : fl := fmul a (FV c).
Lemma mul_nan c a : 0 < c -> fisnan (mul c a) = fisnan a.
Proof. intros K. unfold mul. destruct a; cbn; rewrite ?(Reqb_f c 0) by lra; unfold finf; rewrite ?(Rltb_f c 0), ?(Rltb_t (- c) 0) by lra; reflexivity. Qed.
Definition both (c : R) (p : fl * fl) : fl * fl := (fst p, mul c (snd p)).
Lemma good_scaled c x y : 0 < c -> good_points x (map (mul c) y) = map (both c) (good_points x y).
Proof.
  intros C. unfold good_points. revert y. induction x as [|a x IH]; intros [|b y]; try reflexivity. cbn [map List.combine filter fst snd]. rewrite mul_nan by assumption. rewrite IH. destruct (_ && _)%bool; reflexivity.
Qed.
Lemma fst_both c l : map fst (map (both c) l) = map fst l.
Proof. rewrite map_map. now apply map_ext. Qed.
Lemma snd_both c l : map snd (map (both c) l) = map (mul c) (map snd l).
Proof. rewrite !map_map. now apply map_ext. Qed.
Lemma reorder_scaled c idx g : reorder idx (map (both c) g) = map (both c) (reorder idx g).
Proof. unfold reorder. rewrite map_map. apply map_ext. intros k. change (FNaN, FNaN) with (both c (FNaN, FNaN)) at 1. now rewrite map_nth. Qed.
Lemma dd_scaled c q : dd (map (both c) q) = map (both c) (dd q).
Proof.
  destruct q as [|p q]; [reflexivity|]. cbn [map dd]. f_equal. cbn [both fst]. generalize (fst p). induction q as [|b q IH]; intros a; [reflexivity|]. cbn [map dd_from both fst]. destruct (feq (fst b) a); [apply IH|]. cbn [map]. f_equal. apply IH.
Qed.
Lemma clean_scaled s c x y : sorting s -> 0 < c -> length x = length y ->
  clean_xy s x (map (mul c) y) = rmap (fun r => (fst r, map (mul c) (snd r))) (clean_xy s x y).
Proof.
  intros S C L. rewrite !clean_eq by (rewrite ?map_length; assumption). cbv zeta. rewrite good_scaled, fst_both, reorder_scaled, fst_both, dd_scaled by assumption.
  destruct (check_sorted _); [|reflexivity]. cbn [bind rmap fst snd]. now rewrite fst_both, snd_both.
Qed.
Lemma reals_scaled c l : 0 < c -> reals (map (mul c) l) = rmap (map (fun a => a * c)) (reals l).
Proof.
  intros C. unfold reals. induction l as [|a l IH]; [reflexivity|]. cbn [map mapM]. unfold mul at 1. destruct a; cbn [fmul]; rewrite ?(Reqb_f c 0) by lra; unfold finf; rewrite ?(Rltb_f c 0), ?(Rltb_t (- c) 0) by lra; try reflexivity.
  cbn [bind]. rewrite IH. destruct (mapM _ l); reflexivity.
Qed.
Lemma interp1_scaled xp fp c t : np_interp1 xp (map (fun a => a * c) fp) t = np_interp1 xp fp t * c.
Proof.
  assert (N : forall k, nth k (map (fun a => a * c) fp) 0 = nth k fp 0 * c) by (intros k; apply (map_nth_zero (fun a => a * c)); ring).
  unfold np_interp1. cbv zeta. destruct (length (filter (fun a => Rleb a t) xp)) as [|j]; [apply N|]. destruct (_ =? _)%nat; rewrite !N; [reflexivity|]. unfold Rdiv. ring.
Qed.
Lemma interp_zero_scaled x xp fp c : np_interp_zero x xp (map (fun a => a * c) fp) = rmap (map (fun a => a * c)) (np_interp_zero x xp fp).
Proof.
  unfold np_interp_zero, np_interp. rewrite map_length. destruct (guard (negb _) _); [|reflexivity]. cbn [bind]. destruct (guard _ _); [|reflexivity]. cbn [bind rmap]. f_equal. rewrite map_map. apply map_ext. intros t.
  destruct (_ || _)%bool; [ring|]. apply interp1_scaled.
Qed.
Lemma conv_scaled c x s e : gauss_conv (map (fun a => a * c) x) s e = rmap (map (fun a => a * c)) (gauss_conv x s e).
Proof.
  assert (Z : forall l : list R, zipwith (fun u v => c * u + 0 * v) l l = map (fun a => a * c) l) by (induction l as [|a l IH]; [reflexivity|]; cbn; rewrite IH; f_equal; ring).
  destruct (gauss_conv x s e) as [y|er] eqn:E.
  - cbn [rmap]. rewrite <- (Z x), <- (Z y). now apply conv_linear.
  - cbn [rmap]. pose proof (conv_err _ _ _ _ E). subst er. destruct (gauss_conv (map (fun a => a * c) x) s e) as [y|er] eqn:E'.
    + exfalso. assert (K : exists y, gauss_conv (map (fun a => a * c) x) s e = Ok y) by eauto. apply conv_ok in K. rewrite map_length in K. apply conv_ok in K. destruct K as [y' K]. congruence.
    + f_equal. now apply conv_err in E'.
Qed.
Lemma smooth_scaled c v p g sg : if_smooth v (map (fun a => a * c) p) g sg = rmap (map (fun a => a * c)) (if_smooth v p g sg).
Proof.
  unfold if_smooth. destruct sg as [s|]; [|reflexivity]. destruct (pyget v 1); [|reflexivity]. cbn [bind]. destruct (pyget v 0); [|reflexivity]. cbn [bind]. destruct (quot _ _); [|reflexivity]. cbn [bind]. apply conv_scaled.
Qed.
Lemma rest_scaled dc q c v p : load_rest dc q v (map (fun a => a * c) p) = rmap (fun r => (fst r, map (fun a => a * c) (snd r))) (load_rest dc q v p).
Proof.
  unfold load_rest. cbv zeta. destruct (if_series _ _ _); [|reflexivity]. cbn [bind]. destruct (guard _ _); [|reflexivity]. cbn [bind]. destruct (guard _ _); [|reflexivity]. cbn [bind].
  rewrite interp_zero_scaled. destruct (np_interp_zero _ _ _); [|reflexivity]. cbn [bind rmap]. rewrite smooth_scaled. destruct (if_smooth _ _ _ _); reflexivity.
Qed.
Definition scaled_file (c : R) (m : matrix) : matrix := {| ncols := ncols m; rows := times c (rows m) |}.
Lemma load_scaled s m dc q c : sorting s -> 0 < c -> load_if s (scaled_file c m) dc q = rmap (fun r => (fst r, map (fun a => a * c) (snd r))) (load_if s m dc q).
Proof.
  intros S C. destruct (Nat.eq_dec (ncols m) 2) as [NC|NC].
  2:{ unfold load_if. cbn [ncols scaled_file]. apply Nat.eqb_neq in NC. rewrite NC. reflexivity. }
  destruct (volts (q_v_fmt q)) as [u|] eqn:U.
  2:{ unfold load_if. cbn [ncols scaled_file]. rewrite NC. cbn [Nat.eqb guard bind]. rewrite vfmt_volts, U. reflexivity. }
  rewrite !(load_if_eq s _ dc q u) by assumption.
  assert (EV : raw_v u (scaled_file c m) = raw_v u m) by (unfold raw_v, scaled_file, times; cbn [rows]; rewrite map_map; reflexivity).
  assert (EP : raw_p (scaled_file c m) = map (mul c) (raw_p m)) by (unfold raw_p, scaled_file, times; cbn [rows]; rewrite !map_map; reflexivity).
  rewrite EV, EP, clean_scaled by (try assumption; unfold raw_v, raw_p; now rewrite !map_length).
  destruct (clean_xy s (raw_v u m) (raw_p m)) as [[x y]|]; [|reflexivity]. cbn [rmap bind fst snd]. destruct (reals x) as [v|]; [|reflexivity]. cbn [bind]. rewrite reals_scaled by assumption. destruct (reals y) as [p|]; [|reflexivity]. cbn [rmap bind]. apply rest_scaled.
Qed.

(** ** Loaded samples *)
Lemma increasing_rising l : strictly_increasing l = true -> rising l.
Proof.
  intros H i j IJ J. assert (G : forall l a, strictly_increasing (a :: l) = true -> forall b, In b l -> a < b).
  { induction l0 as [|c l0 IH]; intros a K b Hb; [destruct Hb|]. cbn [strictly_increasing] in K. apply andb_true_iff in K. destruct K as [H1 H2]. destruct (Rltb_spec a c); [|discriminate].
    destruct Hb as [<-|Hb]; [assumption|]. specialize (IH c H2 b Hb). lra. }
  revert i j IJ J. induction l as [|a l IH]; intros i j IJ J; [cbn [List.length] in J; lia|]. destruct j as [|j]; [lia|]. cbn [List.length] in J. destruct i as [|i]; cbn [nth].
  - apply (G l a H). apply nth_In. lia.
  - apply IH; [|lia|lia]. cbn [strictly_increasing] in H. destruct l; [reflexivity|]. now apply andb_true_iff in H.
Qed.
Lemma interp_zero_inv x xp fp r : np_interp_zero x xp fp = Ok r -> (1 <= length xp)%nat /\ length xp = length fp /\
  r = map (fun a => if Rltb a (nth 0 xp 0) || Rltb (nth (length xp - 1) xp 0) a then 0 else np_interp1 xp fp a) x.
Proof.
  unfold np_interp_zero. destruct (np_interp x xp fp) eqn:E; [|discriminate]. cbn [bind]. intros H. injection H as <-. apply np_interp_inv in E. destruct E as [_ [A B]]. auto.
Qed.
Lemma zero_joined xp fp t : rising xp -> length fp = length xp -> (1 <= length xp)%nat ->
  joined xp fp 0 0 t (if Rltb t (nth 0 xp 0) || Rltb (nth (length xp - 1) xp 0) t then 0 else np_interp1 xp fp t).
Proof.
  intros I L N. pose proof (interp_joined xp fp t I L N) as [_ [_ [J3 J4]]]. 
  split; [intros H; now rewrite Rltb_t|]. split; [intros H; rewrite (Rltb_t (nth (length xp - 1) xp 0) t H), orb_true_r; reflexivity|].
  assert (IN : nth 0 xp 0 <= t <= nth (length xp - 1) xp 0 -> (Rltb t (nth 0 xp 0) || Rltb (nth (length xp - 1) xp 0) t)%bool = false) by (intros H; rewrite !Rltb_f by lra; reflexivity).
  split.
  - intros j J E. rewrite IN; [now apply J3|]. subst t. split; apply rising_le; try assumption; lia.
  - intros j J E. rewrite IN; [now apply J4|]. pose proof (rising_le xp 0 j I ltac:(lia) ltac:(lia)). pose proof (rising_le xp (S j) (length xp - 1) I ltac:(lia) ltac:(lia)). lra.
Qed.
Lemma joined_scaled x y t g l r c : 0 < g -> joined (map (fun a => a / g) x) y l r (t / g) c -> joined x y l r t c.
Proof.
  intros G [A [B [C D]]]. rewrite map_length in *. assert (N : forall k, nth k (map (fun a => a / g) x) 0 = nth k x 0 / g) by (intros k; apply (map_nth_zero (fun a => a / g)); unfold Rdiv; ring).
  assert (IG : 0 < / g) by now apply Rinv_0_lt_compat. unfold Rdiv in *.
  split; [intros H; apply A; rewrite N; apply Rmult_lt_compat_r; assumption|]. split; [intros H; apply B; rewrite N; apply Rmult_lt_compat_r; assumption|]. split.
  - intros j J E. apply C; [assumption|]. rewrite N. now rewrite E.
  - intros j J [E1 E2]. rewrite (D j J) by (rewrite !N; split; apply Rmult_le_compat_r; lra). rewrite !N. destruct (Req_dec (nth (S j) x 0) (nth j x 0)) as [Z|Z].
    + rewrite Z. replace (nth j x 0 * / g - nth j x 0 * / g) with 0 by ring. replace (nth j x 0 - nth j x 0) with 0 by ring. replace t with (nth j x 0) by lra. rewrite ?Rminus_eq_0, ?Rmult_0_r, ?Rmult_0_l, ?Rmult_0_r. unfold Rdiv. ring.
    + field. repeat split; lra.
Qed.
Lemma joined_range x y t c lo hi : (1 <= length x)%nat -> rising x -> (forall k, (k < length x)%nat -> lo <= nth k y 0 <= hi) -> lo <= 0 <= hi -> joined x y 0 0 t c -> lo <= c <= hi.
Proof.
  intros N I B Z [A1 [A2 [A3 A4]]]. destruct (Rlt_dec t (nth 0 x 0)) as [H|H]; [rewrite A1; lra|]. destruct (Rlt_dec (nth (length x - 1) x 0) t) as [K|K]; [rewrite A2; lra|].
  destruct (Nat.eq_dec (length x) 1) as [E|E].
  - rewrite (A3 0%nat); [apply B; lia|lia|]. rewrite E in K. change (1 - 1)%nat with 0%nat in K. lra.
  - destruct (bracket_index x t (length x - 1) ltac:(lia) ltac:(lra)) as [j [J1 J2]]. rewrite (A4 j) by (try assumption; lia). pose proof (B j ltac:(lia)). pose proof (B (S j) ltac:(lia)). pose proof (I j (S j) ltac:(lia) ltac:(lia)).
    set (w := (t - nth j x 0) / (nth (S j) x 0 - nth j x 0)). assert (W : 0 <= w <= 1). { unfold w. split; [apply Rmult_le_pos; [lra|left; apply Rinv_0_lt_compat; lra]|]. apply (Rmult_le_reg_r (nth (S j) x 0 - nth j x 0)); [lra|]. unfold Rdiv. rewrite Rmult_assoc, Rinv_l by lra. lra. }
    replace ((nth (S j) y 0 - nth j y 0) * (t - nth j x 0) / (nth (S j) x 0 - nth j x 0)) with ((nth (S j) y 0 - nth j y 0) * w) by (unfold w, Rdiv; ring). nra.
Qed.
Lemma grid0_nth vm g n k : (k < n)%nat -> g <> 0 -> nth k (linspace 0 (vm / g) n) 0 * g = INR k * (vm / INR (n - 1)).
Proof. intros K G. rewrite linspace_nth by assumption. unfold Rdiv. rewrite Rplus_0_l, Rminus_0_r. replace (vm * / g * / INR (n - 1)) with (vm * / INR (n - 1) * / g) by ring. rewrite Rmult_assoc. f_equal. rewrite Rmult_assoc, Rinv_l by assumption. ring. Qed.

Lemma load_samples s m dc q V P : sorting s -> load_if s m dc q = Ok (V, P) -> q_rseries q = None -> 0 < dc_vgap dc ->
  exists u x y, volts (q_v_fmt q) = Some u /\ clean_xy s (raw_v u m) (raw_p m) = Ok (map FV x, map FV y) /\ length x = length y /\
    let x' := map (fun a => a * q_v_multiplier q - fst (dc_offset dc)) x in
    rising x' /\ length V = q_npts q /\ length P = q_npts q /\
    (forall k, (k < q_npts q)%nat -> nth k V 0 * dc_vgap dc = INR k * (q_vmax q / INR (q_npts q - 1))) /\
    exists P0, length P0 = q_npts q /\ (forall k, (k < q_npts q)%nat -> joined x' y 0 0 (nth k V 0 * dc_vgap dc) (nth k P0 0)) /\
      if_smooth V P0 (dc_vgap dc) (q_sigma q) = Ok P.
Proof.
  intros S H RS G. destruct (load_if_inv _ _ _ _ _ H) as [NC [u U]]. rewrite (load_if_eq s m dc q u S NC U) in H.
  destruct (clean_xy s (raw_v u m) (raw_p m)) as [[fx fy]|] eqn:C; [|discriminate]. cbn [bind fst snd] in H. destruct (reals fx) as [x|] eqn:EX; [|discriminate]. cbn [bind] in H. destruct (reals fy) as [y|] eqn:EY; [|discriminate]. cbn [bind] in H.
  apply reals_inv in EX, EY. subst fx fy. pose proof (clean_props s _ _ _ _ S C) as [LX _]. rewrite !map_length in LX.
  exists u, x, y. split; [assumption|]. split; [assumption|]. split; [assumption|]. intros x'.
  unfold load_rest in H. cbv zeta in H. rewrite RS in H. cbn [if_series bind] in H. rewrite Reqb_f in H by lra. cbn [negb guard bind] in H. rewrite !map_map in H.
  destruct (strictly_increasing _) eqn:SI; [|discriminate]. cbn [guard bind] in H. 
  destruct (np_interp_zero _ _ _) as [P0|] eqn:EP; [|discriminate]. cbn [bind] in H. destruct (if_smooth _ _ _ _) as [P1|] eqn:ES; [|discriminate]. cbn [bind] in H. injection H as <- <-.
  apply increasing_rising in SI. replace (map (fun a => (a * q_v_multiplier q - fst (dc_offset dc)) / dc_vgap dc) x) with (map (fun a => a / dc_vgap dc) x') in * by (unfold x'; now rewrite map_map).
  apply interp_zero_inv in EP. destruct EP as [N [LE EP]]. rewrite map_length in N, LE.
  assert (NT : forall k, nth k (map (fun a => a / dc_vgap dc) x') 0 = nth k x' 0 / dc_vgap dc) by (intros k; apply (map_nth_zero (fun a => a / dc_vgap dc)); unfold Rdiv; ring).
  assert (RX : rising x'). { intros i j IJ J. pose proof (SI i j IJ ltac:(rewrite map_length; assumption)) as K. rewrite !NT in K. unfold Rdiv in K. apply Rmult_lt_reg_r in K; [assumption|now apply Rinv_0_lt_compat]. }
  assert (LP : length P0 = q_npts q) by (rewrite EP, map_length; apply linspace_length).
  split; [assumption|]. split; [apply linspace_length|]. split.
  { unfold if_smooth in ES. destruct (q_sigma q); [|congruence]. destruct (pyget _ 1); [|discriminate]. cbn [bind] in ES. destruct (pyget _ 0); [|discriminate]. cbn [bind] in ES. destruct (quot _ _); [|discriminate]. cbn [bind] in ES. apply conv_length in ES. congruence. }
  split; [intros k K; apply grid0_nth; [assumption|lra]|]. exists P0. split; [assumption|]. split; [|assumption].
  intros k K. apply (joined_scaled x' y _ (dc_vgap dc)); [assumption|]. replace (nth k (linspace 0 (q_vmax q / dc_vgap dc) (q_npts q)) 0 * dc_vgap dc / dc_vgap dc) with (nth k (linspace 0 (q_vmax q / dc_vgap dc) (q_npts q)) 0) by (field; lra).
  rewrite EP. rewrite (nth_map_in _ _ k 0 0) by (now rewrite linspace_length). apply zero_joined; [assumption|rewrite map_length; congruence|now rewrite map_length].
Qed.
(** The loaded powers stay within the range of the measured ones (and 0). *)
Lemma conv_average x w y : gauss_conv x w 3 = Ok y -> bell_average w x y.
Proof.
  intros H. destruct (conv_parts _ _ _ _ H) as [m [_ [W M]]]. exists m. split; [assumption|]. split; [lia|]. destruct (conv_formula _ _ _ _ _ H W) as [L F]. split; [assumption|].
  intros k K. rewrite (F k K). set (N := nsum m (fun j => bell w (INR j - w * 3))). assert (NP : 0 < N) by (apply nsum_pos; [lia|intros; apply bell_pos]).
  rewrite Rmult_comm, <- nsum_scal. apply nsum_ext. intros j _. unfold norm_weight. fold N. field. lra.
Qed.
Lemma smooth_average v p g sg p' : if_smooth v p g sg = Ok p' -> smoothed_powers g v p sg p'.
Proof.
  unfold if_smooth, smoothed_powers. destruct sg as [s|]; [|intros H; now injection H].
  destruct v as [|a [|b v]]; [discriminate|discriminate|]. rewrite !(pyget_nth (a :: b :: v) _ 0) by (cbn [length]; lia). change (Z.to_nat (if (1 <? 0)%Z then 1 + Z.of_nat (length (a :: b :: v)) else 1)) with 1%nat. change (Z.to_nat (if (0 <? 0)%Z then 0 + Z.of_nat (length (a :: b :: v)) else 0)) with 0%nat. cbn [nth bind].
  destruct (quot _ _) as [w|] eqn:Q; [|discriminate]. cbn [bind]. intros H. apply conv_average in H. apply quot_ok in Q. destruct Q as [N ->].
  eexists. split; [exact H|]. destruct (Rltb_spec (1 / 2) s); split; intros; try lra; field; split; intros Z; apply N; rewrite Z; ring.
Qed.
Lemma smooth_range v p g sg p' lo hi : if_smooth v p g sg = Ok p' -> Forall (fun a => lo <= a <= hi) p -> Forall (fun a => lo <= a <= hi) p'.
Proof.
  unfold if_smooth. destruct sg as [w|]; [|intros H; injection H as <-; trivial]. destruct (pyget v 1); [|discriminate]. cbn [bind]. destruct (pyget v 0); [|discriminate]. cbn [bind]. destruct (quot _ _); [|discriminate]. cbn [bind]. intros H. now apply conv_bounds with (1 := H).
Qed.
Lemma load_range s m dc q V P lo hi : sorting s -> load_if s m dc q = Ok (V, P) -> q_rseries q = None -> 0 < dc_vgap dc -> lo <= 0 <= hi ->
  (forall r b, In r (rows m) -> nth 1 r FNaN = FV b -> lo <= b <= hi) -> Forall (fun a => lo <= a <= hi) P.
Proof.
  intros S H RS G Z B. destruct (load_samples s m dc q V P S H RS G) as [u [x [y [U [C [LX [RX [LV [LP [GR [P0 [LP0 [J SM]]]]]]]]]]]]]. apply smooth_range with (1 := SM).
  apply Forall_forall. intros a A. destruct (In_nth _ _ 0 A) as [k [K <-]]. rewrite LP0 in K. specialize (J k K).
  pose proof (clean_props s _ _ _ _ S C) as [_ [_ [_ [_ [PT _]]]]].
  assert (YB : forall j, (j < length y)%nat -> lo <= nth j y 0 <= hi).
  { intros j Hj. destruct (PT (FV (nth j x 0)) (FV (nth j y 0))) as [i [E1 E2]].
    - exists j. split; rewrite nth_error_map; (rewrite (nth_error_nth' _ 0) by lia); reflexivity.
    - unfold raw_p in E2. rewrite nth_error_map in E2. destruct (nth_error (rows m) i) as [r|] eqn:ER; [|discriminate]. cbn in E2. injection E2 as E2. apply nth_error_In in ER. now apply (B r). }
  apply (joined_range (map (fun a => a * q_v_multiplier q - fst (dc_offset dc)) x) y (nth k V 0 * dc_vgap dc)); try assumption.
  - rewrite map_length. destruct x; [|cbn [List.length]; lia]. exfalso. destruct y; [|discriminate]. clear - C S. 
    rewrite clean_eq in C; [|assumption|unfold raw_v, raw_p; now rewrite !map_length]. cbv zeta in C. destruct (reorder _ _) as [|p l] eqn:E; [cbn in C; discriminate|]. destruct (check_sorted _); [|discriminate]. cbn [bind] in C. injection C as C _. discriminate C.
  - rewrite map_length. intros j Hj. apply YB. lia.
Qed.
(** A file with increasing voltages. *)
Lemma rising_cons a l : rising (a :: l) -> rising l /\ forall b, In b l -> a < b.
Proof.
  intros H. split; [intros i j IJ J; apply (H (S i) (S j)); cbn [List.length]; lia|]. intros b B. destruct (In_nth _ _ 0 B) as [k [K <-]]. apply (H 0%nat (S k)); cbn [List.length]; lia.
Qed.
Lemma fl_rising x : rising x -> Spec_CleanData.increasing (map FV x).
Proof.
  unfold Spec_CleanData.increasing. induction x as [|a x IH]; intros H; [constructor|]. apply rising_cons in H. destruct H as [H1 H2]. cbn [map]. constructor; [now apply IH|]. apply Forall_forall. intros b B. apply in_map_iff in B. destruct B as [c [<- C]]. cbn. apply Rltb_t. now apply H2.
Qed.
Lemma rising_increasing l : rising l -> strictly_increasing l = true.
Proof.
  induction l as [|a [|b l] IH]; intros H; try reflexivity. apply rising_cons in H. destruct H as [H1 H2]. cbn [strictly_increasing]. rewrite Rltb_t by (apply H2; now left). now apply IH.
Qed.
Lemma rising_map f x : (forall a b, a < b -> f a < f b) -> rising x -> rising (map f x).
Proof. intros F H i j IJ J. rewrite map_length in J. rewrite !(nth_map_in f x _ 0 0) by lia. apply F. now apply H. Qed.
Lemma load_rows s dc q u v p : sorting s -> volts (q_v_fmt q) = Some u -> length p = length v -> (2 <= length v)%nat -> rising v ->
  load_if s {| ncols := 2; rows := measured v p |} dc q = load_rest dc q (map (fun a => a * u) v) p.
Proof.
  intros S U L N RV. rewrite (load_if_eq s _ dc q u) by (assumption || reflexivity). pose proof (volts_pos _ _ U) as UP.
  assert (EV : raw_v u {| ncols := 2; rows := measured v p |} = map FV (map (fun a => a * u) v)).
  { unfold raw_v, measured. cbn [rows]. rewrite map_map. cbn [nth fmul]. apply (list_ext _ _ FNaN); [now rewrite !map_length, seq_length|]. rewrite map_length, seq_length. intros k K. rewrite nth_map_seq by assumption. rewrite map_map, (nth_map_in _ v k FNaN 0) by assumption. reflexivity. }
  assert (EP : raw_p {| ncols := 2; rows := measured v p |} = map FV p).
  { unfold raw_p, measured. cbn [rows]. rewrite map_map. cbn [nth]. apply (list_ext _ _ FNaN); [now rewrite !map_length, seq_length|]. rewrite map_length, seq_length. intros k K. rewrite nth_map_seq by assumption. rewrite (nth_map_in _ p k FNaN 0) by congruence. reflexivity. }
  rewrite EV, EP. rewrite clean_clean; [cbn [bind fst snd]; rewrite !reals_map; reflexivity|assumption|rewrite !map_length; congruence| | |apply fl_rising, rising_map; [intros; nra|assumption]|now rewrite !map_length].
  - apply Forall_forall. intros a A. apply in_map_iff in A. destruct A as [b [<- _]]. reflexivity.
  - apply Forall_forall. intros a A. apply in_map_iff in A. destruct A as [b [<- _]]. reflexivity.
Qed.
Lemma load_total s dc q u v p : sorting s -> volts (q_v_fmt q) = Some u -> length p = length v -> (2 <= length v)%nat -> rising v ->
  q_rseries q = None -> q_sigma q = None -> 0 < q_v_multiplier q -> 0 < dc_vgap dc -> 
  exists V P, load_if s {| ncols := 2; rows := measured v p |} dc q = Ok (V, P).
Proof.
  intros S U L N RV RS SG M G. rewrite (load_rows s dc q u) by assumption. pose proof (volts_pos _ _ U) as UP. unfold load_rest. cbv zeta. rewrite RS, SG. cbn [if_series bind]. rewrite Reqb_f by lra. cbn [negb guard bind]. rewrite !map_map.
  rewrite rising_increasing. 2:{ apply rising_map; [|assumption]. intros a b AB. apply Rmult_lt_compat_r; [now apply Rinv_0_lt_compat|]. assert (a * u < b * u) by nra. nra. }
  cbn [guard bind]. unfold np_interp_zero, np_interp. rewrite map_length, L, Nat.eqb_refl. destruct (Nat.eqb_spec (length v) 0); [lia|]. cbn [negb guard bind if_smooth]. eauto.
Qed.
