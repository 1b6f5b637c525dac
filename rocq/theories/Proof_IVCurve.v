(** Proofs about imported I-V curves: offsets, normalisation, resampling, filtering. *)
From Coq Require Import List ZArith Lia Lra Bool Arith Reals Sorting Permutation String.
From Verif Require Import Base Model_QtCurrent Float NumPy Proof_NumPy Proof_Circuit Proof_IVModels Spec_CleanData Model_CleanData Proof_CleanData Model_MathFn Spec_RespFn Model_RespFn Proof_RespFn2 Spec_IVData Model_IVData Proof_IVLoad Proof_IVData.
Import ListNotations.
Open Scope R_scope.
Local Notation length := List.length.
Local Notation rising := Spec_RespFn.increasing.

Lemma nth_map_in {A B} (f : A -> B) l k d d' : (k < length l)%nat -> nth k (map f l) d = f (nth k l d').
Proof. intros H. rewrite (nth_indep _ d (f d')) by now rewrite map_length. apply map_nth. Qed.

(** ** Smallest and largest values *)
Lemma fold_min l a : (forall x, In x (a :: l) -> fold_left Rmin l a <= x) /\ In (fold_left Rmin l a) (a :: l).
Proof.
  revert a. induction l as [|b l IH]; intros a; cbn [fold_left]; [split; [intros x [->|[]]; lra|now left]|]. destruct (IH (Rmin a b)) as [A B]. split.
  - intros x [->|[->|H]]; [eapply Rle_trans; [apply A; now left|apply Rmin_l]|eapply Rle_trans; [apply A; now left|apply Rmin_r]|apply A; now right].
  - destruct B as [B|B]; [|right; now right]. rewrite <- B. unfold Rmin. destruct (Rle_dec a b); [now left|right; now left].
Qed.
Lemma fold_max l a : (forall x, In x (a :: l) -> x <= fold_left Rmax l a) /\ In (fold_left Rmax l a) (a :: l).
Proof.
  revert a. induction l as [|b l IH]; intros a; cbn [fold_left]; [split; [intros x [->|[]]; lra|now left]|]. destruct (IH (Rmax a b)) as [A B]. split.
  - intros x [->|[->|H]]; [eapply Rle_trans; [apply Rmax_l|apply A; now left]|eapply Rle_trans; [apply Rmax_r|apply A; now left]|apply A; now right].
  - destruct B as [B|B]; [|right; now right]. rewrite <- B. unfold Rmax. destruct (Rle_dec a b); [right; now left|now left].
Qed.
Lemma rmin_ok l m : rmin l = Ok m -> In m l /\ forall x, In x l -> m <= x.
Proof. destruct l as [|a l]; [discriminate|]. cbn [rmin]. intros H. injection H as <-. destruct (fold_min l a). auto. Qed.
Lemma amax_ok l m : amax l = Ok m -> In m l /\ forall x, In x l -> x <= m.
Proof. destruct l as [|a l]; [discriminate|]. cbn [amax]. intros H. injection H as <-. destruct (fold_max l a). auto. Qed.
Lemma rmin_some l : l <> [] -> exists m, rmin l = Ok m.
Proof. destruct l; [contradiction|]. intros _. eexists. reflexivity. Qed.
Lemma amax_some l : l <> [] -> exists m, amax l = Ok m.
Proof. destruct l; [contradiction|]. intros _. eexists. reflexivity. Qed.

(** ** Offsets *)
Section Offsets.
Variable minimize : (R * R -> R) -> R * R -> R * R.
Lemma unipolar v i vo io range : v <> [] -> ~ bipolar (limits range) v ->
  correct_offset minimize v i vo io range = Ok (map (fun a => a - or_else vo 0) v, map (fun a => a - or_else io 0) i, (or_else vo 0, or_else io 0)).
Proof.
  intros NE NB. unfold correct_offset. destruct (limits range) as [lo hi] eqn:EL. destruct (rmin_some v NE) as [m1 E1]. destruct (amax_some v NE) as [m2 E2].
  rewrite E1, E2. cbn [bind]. apply rmin_ok in E1. apply amax_ok in E2. destruct (Rltb_spec m1 lo) as [A|A]; destruct (Rltb_spec hi m2) as [B|B]; cbn [andb negb]; try reflexivity.
  exfalso. apply NB. split; [exists m1; split; [apply E1|assumption]|exists m2; split; [apply E2|assumption]].
Qed.
End Offsets.
(** The offsets are not the given ones. *)
Lemma interp_const xp fp c x : (1 <= length xp)%nat -> length fp = length xp -> (forall k, (k < length fp)%nat -> nth k fp 0 = c) -> np_interp1 xp fp x = c.
Proof.
  intros L LF F. unfold np_interp1. assert (LE : (length (filter (fun a => Rleb a x) xp) <= length xp)%nat) by (clear; induction xp as [|b l IH]; cbn [filter List.length]; [lia|]; destruct (Rleb b x); cbn [List.length]; lia).
  destruct (length (filter (fun a => Rleb a x) xp)) as [|j] eqn:E; [apply F; lia|]. destruct (Nat.eqb_spec (S j) (length xp)); [apply F; lia|]. rewrite !F by lia. unfold Rdiv. ring.
Qed.
Lemma rsum_const (f : R -> R) c l : (forall x, f x = c) -> rsum (map f l) = INR (length l) * c.
Proof. intros H. unfold rsum. induction l as [|a l IH]; [cbn; ring|]. rewrite INR_cons. cbn [map fold_right]. rewrite IH, H. ring. Qed.
Lemma zero_current_model v lo hi o : v <> [] -> offset_model v (map (fun _ => 0) v) lo hi o = 101 * (2 * Rabs (snd o)).
Proof.
  intros NE. unfold offset_model. cbv zeta. assert (LV : (1 <= length v)%nat) by (destruct v; [contradiction|cbn [List.length]; lia]).
  rewrite (rsum_const _ (2 * Rabs (snd o))).
  - rewrite linspace_length. change 101%nat with (Z.to_nat 101). rewrite INR_IZR_INZ, Z2Nat.id by lia. reflexivity.
  - intros x. rewrite (interp_const _ (map (fun a => a - snd o) (map (fun _ => 0) v)) (0 - snd o)); [|rewrite map_length; assumption|now rewrite !map_length|].
    + rewrite (interp_const _ _ (- (0 - snd o))); [|rewrite map_length, rev_length, map_length; assumption|now rewrite !map_length, !rev_length, !map_length|].
      * replace (0 - snd o - - (0 - snd o)) with (- (2 * snd o)) by ring. rewrite Rabs_Ropp, Rabs_mult, (Rabs_right 2) by lra. reflexivity.
      * intros k Hk. rewrite map_map, <- map_rev, map_map in *. rewrite map_length in Hk. now rewrite (nth_map_in _ _ _ _ 0).
    + intros k Hk. rewrite map_map in *. rewrite map_length in Hk. now rewrite (nth_map_in _ _ _ _ 0).
Qed.
Lemma offset_ignored minimize : (forall f x0 p, (exists q, forall r, f q <= f r) -> f (minimize f x0) <= f p) ->
  exists v i range x y o, length v = length i /\ correct_offset minimize v i (Some 0) (Some 1) range = Ok (x, y, o) /\ snd o = 0 /\ y = i.
Proof.
  intros M. exists [-2; 0; 2], [0; 0; 0], (Width 1). cbn [List.length]. unfold correct_offset, limits, rmin, amax. cbn [fold_left bind].
  assert (E1 : Rmin (Rmin (-2) 0) 2 = -2) by (unfold Rmin; destruct (Rle_dec (-2) 0); [destruct (Rle_dec (-2) 2); lra|lra]).
  assert (E2 : Rmax (Rmax (-2) 0) 2 = 2) by (unfold Rmax; destruct (Rle_dec (-2) 0); [destruct (Rle_dec 0 2); lra|lra]).
  rewrite E1, E2. destruct (Rltb_spec (-2) (- (1))); [|lra]. destruct (Rltb_spec 1 2); [|lra]. cbn [andb negb map].
  assert (B1 : Rleb (- (1)) (-2) = false) by (destruct (Rleb_spec (- (1)) (-2)); [lra|reflexivity]). assert (B2 : Rleb (- (1)) 0 = true) by (destruct (Rleb_spec (- (1)) 0); [reflexivity|lra]).
  assert (B3 : Rleb 0 1 = true) by (destruct (Rleb_spec 0 1); [reflexivity|lra]). assert (B4 : Rleb 2 1 = false) by (destruct (Rleb_spec 2 1); [lra|reflexivity]).
  rewrite B1, B2, B3, B4, andb_false_r. cbn [andb]. unfold select. cbn [List.length Nat.eqb List.combine filter fst map snd bind negb guard or_else].
  set (F := offset_model [0] [0] (- (1)) 1). destruct (minimize F (0, 1)) as [vo io] eqn:EM.
  assert (EF : forall o, F o = 101 * (2 * Rabs (snd o))) by (intros o; exact (zero_current_model [0] (- (1)) 1 o ltac:(discriminate))).
  assert (HM : F (vo, io) <= F (0, 0)).
  { rewrite <- EM. apply M. exists (0, 0). intros w. rewrite !EF. cbn [snd]. rewrite Rabs_R0. pose proof (Rabs_pos (snd w)). lra. }
  rewrite !EF in HM. cbn [snd] in HM. rewrite Rabs_R0 in HM. pose proof (Rabs_pos io). assert (Rabs io = 0) by lra. assert (IO : io = 0) by (destruct (Req_dec io 0) as [|N]; [assumption|]; apply Rabs_no_R0 in N; contradiction).
  eexists. eexists. eexists. split; [reflexivity|]. split; [reflexivity|]. cbn [snd]. split; [assumption|]. rewrite IO. f_equal; [ring|f_equal; [ring|f_equal; ring]].
Qed.

(** ** Normalised curves *)
Lemma interp_above xp fp x : rising xp -> length fp = length xp -> (1 <= length xp)%nat -> nth (length xp - 1) xp 0 <= x -> np_interp1 xp fp x = nth (length xp - 1) fp 0.
Proof.
  intros I L H B. unfold np_interp1. rewrite (filter_count xp x (length xp)); [|lia| |intros; lia].
  - cbv zeta. rewrite Nat.eqb_refl. destruct (length xp) as [|m]; [lia|]. f_equal. lia.
  - intros j Hj. destruct (Nat.eq_dec j (length xp - 1)) as [->|]; [assumption|]. specialize (I j (length xp - 1)%nat ltac:(lia) ltac:(lia)). lra.
Qed.
Lemma interp_joined x y t : rising x -> length y = length x -> (1 <= length x)%nat -> joined x y (nth 0 y 0) (nth (length x - 1) y 0) t (np_interp1 x y t).
Proof.
  intros I L H. split; [intros B; apply interp_below; try assumption; lra|]. split; [intros B; apply interp_above; try assumption; lra|]. split; [intros j J ->; now apply interp_at|]. intros j J B. now apply interp_closed.
Qed.
(** Scaling the axes. *)
Lemma interp_scaled x y g c t : rising x -> length y = length x -> (1 <= length x)%nat -> 0 < g -> c <> 0 ->
  np_interp1 (map (fun a => a / g) x) (map (fun a => a / c) y) (t / g) = np_interp1 x y t / c.
Proof.
  intros I L H G C. unfold np_interp1. rewrite !map_length.
  assert (E : length (filter (fun a => Rleb a (t / g)) (map (fun a => a / g) x)) = length (filter (fun a => Rleb a t) x)).
  { clear - G. induction x as [|a x IH]; [reflexivity|]. cbn [map filter]. assert (Q : Rleb (a / g) (t / g) = Rleb a t).
    { destruct (Rleb_spec (a / g) (t / g)) as [A|A], (Rleb_spec a t) as [B|B]; try reflexivity; exfalso.
      - unfold Rdiv in A. apply Rmult_le_reg_r in A; [lra|now apply Rinv_0_lt_compat].
      - unfold Rdiv in A. apply Rnot_le_lt, Rmult_lt_reg_r in A; [lra|now apply Rinv_0_lt_compat]. }
    rewrite Q. destruct (Rleb a t); cbn [List.length]; now rewrite IH. }
  rewrite E. assert (LE : (length (filter (fun a => Rleb a t) x) <= length x)%nat) by (clear; induction x as [|b l IH]; cbn [filter List.length]; [lia|]; destruct (Rleb b t); cbn [List.length]; lia).
  destruct (length (filter (fun a => Rleb a t) x)) as [|j]; [now rewrite (nth_map_in _ _ _ _ 0) by lia|]. destruct (Nat.eqb_spec (S j) (length x)) as [Q|Q]; [now rewrite (nth_map_in _ _ _ _ 0) by lia|].
  rewrite !(nth_map_in _ _ _ _ 0) by lia. specialize (I j (S j) ltac:(lia) ltac:(lia)). field. repeat split; lra.
Qed.
Lemma rising_fl x : Spec_CleanData.increasing (map FV x) -> rising x.
Proof.
  intros H i j IJ J. pose proof (increasing_nth _ i j H ltac:(rewrite map_length; lia)) as F. rewrite !(nth_map_in _ _ _ _ 0) in F by lia. now apply flt_spec_v.
Qed.
Lemma rising_affine x m o : 0 < m -> rising x -> rising (map (fun a => a - o) (map (fun a => a * m) x)).
Proof. intros M H i j IJ J. rewrite !map_length in J. rewrite map_map, !(nth_map_in _ _ _ _ 0) by lia. specialize (H i j IJ J). nra. Qed.
Lemma loaded_inv s m p v i : loaded s m p = Ok (v, i) -> exists x y, load_iv s m (p_v_fmt p) (p_i_fmt p) = Ok (map FV x, map FV y) /\ v = map (fun a => a * p_v_multiplier p) x /\ i = map (fun a => a * p_i_multiplier p) y.
Proof.
  unfold loaded. destruct (load_iv _ _ _ _) as [[x y]|] eqn:E; [|discriminate]. cbn [bind fst snd]. destruct (reals x) as [x'|] eqn:E1; [|discriminate]. cbn [bind]. destruct (reals y) as [y'|] eqn:E2; [|discriminate]. cbn [bind].
  intros H. injection H as <- <-. apply reals_inv in E1. apply reals_inv in E2. subst x y. exists x', y'. auto.
Qed.
Lemma offset_inv minimize v i vo io r v' i' o : correct_offset minimize v i vo io r = Ok (v', i', o) -> v' = map (fun a => a - fst o) v /\ i' = map (fun a => a - snd o) i.
Proof.
  unfold correct_offset. destruct (limits r) as [lo hi]. destruct (rmin v); [|discriminate]. cbn [bind]. destruct (amax v); [|discriminate]. cbn [bind].
  destruct (negb _); [intros H; injection H as <- <- <-; auto|]. destruct (select _ v); [|discriminate]. cbn [bind]. destruct (select _ i); [|discriminate]. cbn [bind]. destruct (guard _ _); [|discriminate]. cbn [bind].
  destruct (minimize _ _) as [mv mi]. intros H. injection H as <- <- <-. auto.
Qed.
Lemma np_interp_inv x xp fp r : np_interp x xp fp = Ok r -> r = map (np_interp1 xp fp) x /\ (1 <= length xp)%nat /\ length xp = length fp.
Proof.
  unfold np_interp. destruct (Nat.eqb_spec (length xp) 0); [discriminate|]. destruct (Nat.eqb_spec (length xp) (length fp)); [|discriminate]. cbn. intros H. injection H as <-. split; [reflexivity|]. lia.
Qed.
Lemma div_mul a b : b <> 0 -> a / b * b = a.
Proof. intros. field. assumption. Qed.
Lemma grid_nth vm g n k : (k < n)%nat -> nth k (map (fun a => a / g) (linspace (- vm) vm n)) 0 = (- vm + INR k * (2 * vm / INR (n - 1))) / g.
Proof. intros K. rewrite (nth_map_in _ _ _ _ 0) by now rewrite linspace_length. rewrite linspace_nth by assumption. do 3 f_equal. unfold Rdiv. ring. Qed.

Section Curves.
Variable minimize : (R * R -> R) -> R * R -> R * R.
Variable savgol : list R -> Z -> Z -> list R.
Lemma dc_metadata s m p V I d : dciv_curve minimize savgol s m p = Ok (V, I, d) ->
  V = dc_vnorm d /\ I = dc_inorm d /\ length V = p_npts p /\ length I = p_npts p /\
  (forall k, (k < p_npts p)%nat -> nth k V 0 * dc_vgap d = - p_vmax p + INR k * (2 * p_vmax p / INR (p_npts p - 1))) /\
  dc_vgap d <> 0 /\ dc_rn d <> 0 /\ dc_igap d * dc_rn d = dc_vgap d /\ dc_fgap d * sc_h = sc_e * dc_vgap d /\ dc_rseries d = p_rseries p /\
  (forall g, p_vgap p = Some g -> dc_vgap d = g).
Proof.
  unfold dciv_curve. destruct (loaded s m p) as [[v i]|]; [|discriminate]. cbn [bind fst snd]. destruct (correct_offset _ _ _ _ _ _) as [[[v1 i1] o]|]; [|discriminate]. cbn [bind].
  destruct (processed _ _ _ _) as [[[v2 i2] [v3 i3]]|]; [|discriminate]. cbn [bind].
  destruct (match p_vgap p with Some g => Ok g | None => find_gap_voltage v3 i3 (p_vrn p) end) as [g|] eqn:EG; [|discriminate]. cbn [bind].
  destruct (find_normal_resistance _ _ _) as [[rn vint]|]; [|discriminate]. cbn [bind]. destruct (find_subgap_resistance _ _ _) as [rsg|]; [|discriminate]. cbn [bind].
  destruct (quot g rn) as [ig|] eqn:EQ; [|discriminate]. cbn [bind]. apply quot_ok in EQ. destruct EQ as [RN ->]. destruct (Reqb_spec g 0) as [|G]; [discriminate|]. cbn [negb guard bind].
  destruct (np_interp _ _ _) as [c|] eqn:EI; [|discriminate]. cbn [bind]. intros H. injection H as <- <- <-. apply np_interp_inv in EI. destruct EI as [-> _]. cbn [dc_vnorm dc_inorm dc_vgap dc_igap dc_rn dc_fgap dc_rseries].
  split; [reflexivity|]. split; [reflexivity|]. rewrite !map_length, linspace_length. split; [reflexivity|]. split; [reflexivity|]. split.
  { intros k K. rewrite grid_nth by assumption. now apply div_mul. }
  split; [assumption|]. split; [assumption|]. split; [field; assumption|]. split; [unfold sc_h; field|]. split; [reflexivity|].
  intros g' E. rewrite E in EG. now injection EG.
Qed.
Lemma processed_plain p v i : p_filter_data p = false -> p_rseries p = None -> processed savgol p v i = Ok (v, i, (v, i)).
Proof. intros F S. unfold processed, filter_iv_data. rewrite F, S. cbn [negb bind correct_series_resistance fst snd]. rewrite !reals_map. reflexivity. Qed.
Lemma dc_samples s m p V I d : sorting s -> dciv_curve minimize savgol s m p = Ok (V, I, d) -> p_filter_data p = false -> p_rseries p = None -> 0 < p_v_multiplier p -> 0 < dc_vgap d ->
  exists v i, load_iv s m (p_v_fmt p) (p_i_fmt p) = Ok (map FV v, map FV i) /\
    let x := map (fun a => a * p_v_multiplier p - fst (dc_offset d)) v in let y := map (fun a => a * p_i_multiplier p - snd (dc_offset d)) i in
    dc_vraw d = x /\ dc_iraw d = y /\
    forall k, (k < p_npts p)%nat -> joined x y (nth 0 y 0) (nth (length x - 1) y 0) (nth k V 0 * dc_vgap d) (nth k I 0 * dc_igap d).
Proof.
  intros SO H F RS MP GP. pose proof (dc_metadata _ _ _ _ _ _ H) as MD. destruct MD as [_ [_ [_ [_ [_ [_ [_ [MI _]]]]]]]].
  unfold dciv_curve in H. destruct (loaded s m p) as [[v i]|] eqn:EL; [|discriminate]. cbn [bind fst snd] in H. destruct (correct_offset _ _ _ _ _ _) as [[[v1 i1] o]|] eqn:EO; [|discriminate]. cbn [bind] in H.
  rewrite processed_plain in H by assumption. cbn [bind] in H.
  destruct (match p_vgap p with Some g => Ok g | None => find_gap_voltage v1 i1 (p_vrn p) end) as [g|]; [|discriminate]. cbn [bind] in H.
  destruct (find_normal_resistance _ _ _) as [[rn vint]|]; [|discriminate]. cbn [bind] in H. destruct (find_subgap_resistance _ _ _) as [rsg|]; [|discriminate]. cbn [bind] in H.
  destruct (quot g rn) as [ig|] eqn:EQ; [|discriminate]. cbn [bind] in H. apply quot_ok in EQ. destruct EQ as [RN EQ]. destruct (Reqb_spec g 0) as [|G]; [discriminate|]. cbn [negb guard bind] in H.
  destruct (np_interp _ _ _) as [c|] eqn:EI; [|discriminate]. cbn [bind] in H. injection H as <- <- <-. cbn [dc_vgap dc_igap dc_rn dc_offset dc_vraw dc_iraw] in *. apply np_interp_inv in EI. destruct EI as [-> [LI1 LI2]]. rewrite !map_length in LI1, LI2.
  apply loaded_inv in EL. destruct EL as [x [y [EL [-> ->]]]]. apply offset_inv in EO. destruct EO as [-> ->]. exists x, y. split; [assumption|]. cbv zeta.
  destruct (load_props s m _ _ _ _ SO EL) as [_ [_ [_ [_ [_ [_ [_ [INC _]]]]]]]]. apply rising_fl in INC. apply (rising_affine x (p_v_multiplier p) (fst o) MP) in INC.
  rewrite <- (map_map (fun a => a * p_v_multiplier p) (fun a => a - fst o)), <- (map_map (fun a => a * p_i_multiplier p) (fun a => a - snd o)). split; [reflexivity|]. split; [reflexivity|].
  intros k K. rewrite (nth_map_in (fun a => a / g) (linspace _ _ _) k 0 0) by now rewrite linspace_length. rewrite (nth_map_in (np_interp1 _ _) _ k 0 0) by now rewrite map_length, linspace_length.
  rewrite (nth_map_in (fun a => a / g) (linspace _ _ _) k 0 0) by now rewrite linspace_length.
  set (t := nth k (linspace _ _ _) 0). assert (IG : ig <> 0) by (intros ->; lra).
  rewrite interp_scaled; [|assumption|rewrite !map_length in *; lia|rewrite !map_length in *; lia|assumption|assumption].
  replace (t / g * g) with t by (field; assumption). replace (np_interp1 _ _ t / ig * ig) with (np_interp1 (map (fun a => a - fst o) (map (fun a => a * p_v_multiplier p) x)) (map (fun a => a - snd o) (map (fun a => a * p_i_multiplier p) y)) t) by (field; assumption).
  apply interp_joined; [assumption|rewrite !map_length in *; lia|rewrite !map_length in *; lia].
Qed.
Lemma pumped_samples s m dc p V I vo io : sorting s -> iv_curve savgol s m dc p = Ok (V, I) -> p_filter_data p = false -> p_rseries p = None -> 0 < p_v_multiplier p -> 0 < dc_vgap dc ->
  (p_voffset p = Some vo /\ p_ioffset p = Some io) \/ ((p_voffset p = None \/ p_ioffset p = None) /\ dc_offset dc = (vo, io)) ->
  exists v i, load_iv s m (p_v_fmt p) (p_i_fmt p) = Ok (map FV v, map FV i) /\
    let x := map (fun a => a * p_v_multiplier p - vo) v in let y := map (fun a => a * p_i_multiplier p - io) i in
    length V = p_npts p /\ length I = p_npts p /\
    forall k, (k < p_npts p)%nat -> nth k V 0 * dc_vgap dc = - p_vmax p + INR k * (2 * p_vmax p / INR (p_npts p - 1)) /\
      joined x y 0 0 (nth k V 0 * dc_vgap dc) (nth k I 0 * dc_igap dc).
Proof.
  intros SO H F RS MP GP OF. unfold iv_curve in H. destruct (loaded s m p) as [[v i]|] eqn:EL; [|discriminate]. cbn [bind fst snd] in H.
  assert (EO : match p_voffset p with Some vo => match p_ioffset p with Some io => (vo, io) | None => dc_offset dc end | None => dc_offset dc end = (vo, io)).
  { destruct OF as [[-> ->]|[[->| ->] ->]]; try reflexivity. now destruct (p_voffset p). }
  rewrite EO in H. rewrite processed_plain in H by assumption. cbn [bind] in H. destruct (Reqb_spec (dc_vgap dc) 0) as [|G]; [discriminate|]. destruct (Reqb_spec (dc_igap dc) 0) as [|IG]; [discriminate|]. cbn [negb andb guard bind] in H.
  unfold np_interp_zero in H. destruct (np_interp _ _ _) as [c|] eqn:EI; [|discriminate]. cbn [bind] in H. injection H as <- <-. apply np_interp_inv in EI. destruct EI as [_ [LI1 LI2]]. rewrite !map_length in LI1, LI2.
  apply loaded_inv in EL. destruct EL as [x [y [EL [-> ->]]]]. rewrite !map_length in LI1, LI2. exists x, y. split; [assumption|]. cbv zeta.
  destruct (load_props s m _ _ _ _ SO EL) as [_ [_ [_ [_ [_ [_ [_ [INC _]]]]]]]]. apply rising_fl in INC. apply (rising_affine x (p_v_multiplier p) vo MP) in INC.
  rewrite <- (map_map (fun a => a * p_v_multiplier p) (fun a => a - vo) x), <- (map_map (fun a => a * p_i_multiplier p) (fun a => a - io) y).
  set (X := map (fun a => a - vo) (map (fun a => a * p_v_multiplier p) x)) in *. set (Y := map (fun a => a - io) (map (fun a => a * p_i_multiplier p) y)) in *.
  rewrite map_length in LI2. assert (LX : length X = length x) by (unfold X; rewrite !map_length; reflexivity). assert (LY : length Y = length x) by congruence.
  rewrite !map_length, linspace_length. split; [reflexivity|]. split; [reflexivity|]. intros k K.
  assert (EV : nth k (map (fun a => a / dc_vgap dc) (linspace (- p_vmax p) (p_vmax p) (p_npts p))) 0 * dc_vgap dc = - p_vmax p + INR k * (2 * p_vmax p / INR (p_npts p - 1))) by (rewrite grid_nth by assumption; now apply div_mul).
  split; [assumption|]. match goal with |- context [nth k (map ?f (map ?g ?l)) 0] => rewrite (nth_map_in f (map g l) k 0 0) by now rewrite map_length, linspace_length end.
  set (T := nth k (map (fun a => a / dc_vgap dc) (linspace _ _ _)) 0) in *. set (t := T * dc_vgap dc) in *. assert (ET : T = t / dc_vgap dc) by (unfold t; field; assumption). clearbody t. rewrite ET.
  rewrite !(nth_map_in _ X _ _ 0) by lia.
  assert (SC : forall a b, Rltb (a / dc_vgap dc) (b / dc_vgap dc) = Rltb a b).
  { intros a b. destruct (Rltb_spec (a / dc_vgap dc) (b / dc_vgap dc)) as [A|A], (Rltb_spec a b) as [B|B]; try reflexivity; exfalso.
    - unfold Rdiv in A. apply Rmult_lt_reg_r in A; [lra|now apply Rinv_0_lt_compat].
    - unfold Rdiv in A. apply Rnot_lt_le, Rmult_le_reg_r in A; [lra|now apply Rinv_0_lt_compat]. }
  rewrite !SC. rewrite interp_scaled by (try assumption; lia). 
  pose proof (interp_joined X Y t INC ltac:(lia) ltac:(lia)) as [J1 [J2 [J3 J4]]].
  destruct (Rltb_spec t (nth 0 X 0)) as [A|A]; cbn [orb].
  - rewrite Rmult_0_l. split; [reflexivity|]. split; [reflexivity|]. assert (AL : forall j, (j < length X)%nat -> nth 0 X 0 <= nth j X 0) by (intros j J; destruct (Nat.eq_dec j 0) as [->|]; [lra|left; apply INC; lia]).
    split; [intros j J E; specialize (AL j J); lra|intros j J [B _]; specialize (AL j ltac:(lia)); lra].
  - destruct (Rltb_spec (nth (length X - 1) X 0) t) as [B|B].
    + rewrite Rmult_0_l. split; [reflexivity|]. split; [reflexivity|]. assert (AL : forall j, (j < length X)%nat -> nth j X 0 <= nth (length X - 1) X 0) by (intros j J; destruct (Nat.eq_dec j (length X - 1)) as [->|]; [lra|left; apply INC; lia]).
      split; [intros j J E; specialize (AL j J); lra|intros j J [_ Q]; specialize (AL (S j) J); lra].
    + replace (np_interp1 X Y t / dc_igap dc * dc_igap dc) with (np_interp1 X Y t) by (field; assumption). split; [lra|]. split; [lra|]. split; assumption.
Qed.
End Curves.

(** ** Filtering *)
Lemma bracket_index (x : list R) t n : (1 <= n)%nat -> nth 0 x 0 <= t <= nth n x 0 -> exists j, (S j <= n)%nat /\ nth j x 0 <= t <= nth (S j) x 0.
Proof.
  induction n as [|n IH]; intros N H; [lia|]. destruct (Nat.eq_dec n 0) as [->|]; [exists 0%nat; split; [lia|assumption]|].
  destruct (Rle_dec (nth n x 0) t); [exists n; split; [lia|lra]|]. destruct IH as [j [J1 J2]]; [lia|lra|]. exists j. split; [lia|assumption].
Qed.
Lemma interp_line x a b t : rising x -> (2 <= length x)%nat -> nth 0 x 0 <= t <= nth (length x - 1) x 0 -> np_interp1 x (map (fun u => a * u + b) x) t = a * t + b.
Proof.
  intros I L H. destruct (bracket_index x t (length x - 1) ltac:(lia) H) as [j [J1 J2]]. rewrite (interp_closed _ _ _ j I) by (try assumption; rewrite ?map_length; lia).
  rewrite !(nth_map_in _ _ _ _ 0) by lia. specialize (I j (S j) ltac:(lia) ltac:(lia)). field. lra.
Qed.
Lemma rising_le x i j : rising x -> (i <= j)%nat -> (j < length x)%nat -> nth i x 0 <= nth j x 0.
Proof. intros I IJ J. destruct (Nat.eq_dec i j) as [->|]; [lra|]. left. apply I; lia. Qed.
Lemma rmin_rising x : rising x -> (1 <= length x)%nat -> rmin x = Ok (nth 0 x 0).
Proof.
  intros I L. destruct (rmin_some x) as [m E]; [destruct x; [cbn [List.length] in L; lia|discriminate]|]. rewrite E. f_equal. apply rmin_ok in E. destruct E as [E1 E2]. destruct (In_nth _ _ 0 E1) as [k [K <-]].
  pose proof (rising_le x 0 k I ltac:(lia) K). specialize (E2 (nth 0 x 0) ltac:(apply nth_In; lia)). lra.
Qed.
Lemma amax_rising x : rising x -> (1 <= length x)%nat -> amax x = Ok (nth (length x - 1) x 0).
Proof.
  intros I L. destruct (amax_some x) as [m E]; [destruct x; [cbn [List.length] in L; lia|discriminate]|]. rewrite E. f_equal. apply amax_ok in E. destruct E as [E1 E2]. destruct (In_nth _ _ 0 E1) as [k [K <-]].
  pose proof (rising_le x k (length x - 1) I ltac:(lia) ltac:(lia)). specialize (E2 (nth (length x - 1) x 0) ltac:(apply nth_In; lia)). lra.
Qed.
Lemma rising_map x a b : 0 < a -> rising x -> rising (map (fun u => a * u + b) x).
Proof. intros A I i j IJ J. rewrite map_length in J. rewrite !(nth_map_in _ _ _ _ 0) by lia. specialize (I i j IJ J). nra. Qed.
Lemma linspace_rising a b n : a < b -> (2 <= n)%nat -> rising (linspace a b n).
Proof.
  intros AB N i j IJ J. rewrite linspace_length in J. rewrite !linspace_nth by lia. assert (0 < (b - a) / INR (n - 1)) by (apply Rdiv_lt_0_compat; [lra|apply lt_0_INR; lia]).
  apply lt_INR in IJ. nra.
Qed.
Lemma linspace_first a b n : (1 <= n)%nat -> nth 0 (linspace a b n) 0 = a.
Proof. intros N. rewrite linspace_nth by lia. change (INR 0) with 0. ring. Qed.
Lemma linspace_last a b n : (2 <= n)%nat -> nth (n - 1) (linspace a b n) 0 = b.
Proof. intros N. rewrite linspace_nth by lia. field. apply not_0_INR. lia. Qed.
Lemma linspace_map a b n c d : map (fun u => c * u + d) (linspace a b n) = linspace (c * a + d) (c * b + d) n.
Proof. unfold linspace. rewrite map_map. apply map_ext. intros k. unfold Rdiv. ring. Qed.
Lemma linspace_range a b n t : a < b -> (2 <= n)%nat -> In t (linspace a b n) -> a <= t <= b.
Proof.
  intros AB N H. destruct (In_nth _ _ 0 H) as [k [K <-]]. rewrite linspace_length in K. pose proof (linspace_rising a b n AB N) as I. 
  pose proof (linspace_first a b n ltac:(lia)) as F1. pose proof (linspace_last a b n N) as F2.
  pose proof (rising_le _ 0 k I ltac:(lia) ltac:(rewrite linspace_length; lia)). pose proof (rising_le _ k (n - 1) I ltac:(lia) ltac:(rewrite linspace_length; lia)). lra.
Qed.
Lemma interp_resample x a b n : rising x -> (2 <= length x)%nat -> (2 <= n)%nat ->
  np_interp (linspace (nth 0 x 0) (nth (length x - 1) x 0) n) x (map (fun u => a * u + b) x) = Ok (map (fun u => a * u + b) (linspace (nth 0 x 0) (nth (length x - 1) x 0) n)).
Proof.
  intros I L N. unfold np_interp. rewrite map_length. destruct (Nat.eqb_spec (length x) 0); [lia|]. rewrite Nat.eqb_refl. cbn [negb guard bind]. f_equal. apply map_ext_in. intros t T.
  apply interp_line; try assumption. apply linspace_range with n; try assumption. apply I; lia.
Qed.
Lemma filter_line savgol v a b nwind npoly theta npts : rising v -> (2 <= length v)%nat -> (2 <= npts)%nat ->
  (forall p q, savgol (linspace p q npts) nwind npoly = linspace p q npts) ->
  let i := map (fun u => a * u + b) v in let vm := nth (length v - 1) v 0 in
  forall im, amax i = Ok im -> 0 < vm -> im <> 0 -> 0 < cos theta + sin theta * (a * vm / im) ->
  filter_iv_data savgol v i true nwind npoly theta npts = Ok (linspace (nth 0 v 0) vm npts, map (fun u => a * u + b) (linspace (nth 0 v 0) vm npts)).
Proof.
  intros I L N SG i vm im EI VP IN KP. unfold filter_iv_data. cbn [negb]. rewrite (amax_rising v I) by lia. fold vm. rewrite EI. cbn [bind].
  destruct (Reqb_spec vm 0); [lra|]. destruct (Reqb_spec im 0); [contradiction|]. cbn [negb andb guard bind].
  set (al := a * vm / im) in *. set (be := b / im). set (x := map (fun u => / vm * u + 0) v).
  assert (EX : map (fun u => u / vm) v = x) by (apply map_ext; intros u; unfold Rdiv; ring).
  assert (EY : map (fun u => u / im) i = map (fun u => al * u + be) x) by (unfold i, x, al, be; rewrite !map_map; apply map_ext; intros u; field; split; assumption).
  assert (IX : rising x) by (apply rising_map; [now apply Rinv_0_lt_compat|assumption]). assert (LX : length x = length v) by (unfold x; now rewrite map_length).
  rewrite EX, EY. rewrite rotate_ok by now rewrite map_length. rewrite cos_neg, sin_neg. cbn [bind fst snd]. set (c := cos theta) in *. set (s := sin theta) in *.
  set (ka := c + s * al) in *. assert (KA : ka <> 0) by lra.
  set (x1 := map (fun u => ka * u + s * be) x). set (al1 := (c * al - s) / ka). set (be1 := c * be - al1 * (s * be)).
  assert (E1 : zipwith (fun p q => c * p - - s * q) x (map (fun u => al * u + be) x) = x1).
  { rewrite <- (map_id x) at 1. rewrite zip_map2. unfold x1, ka. apply map_ext. intros u. ring. }
  assert (E2 : zipwith (fun p q => - s * p + c * q) x (map (fun u => al * u + be) x) = map (fun u => al1 * u + be1) x1).
  { rewrite <- (map_id x) at 1. rewrite zip_map2. unfold x1. rewrite map_map. apply map_ext. intros u. unfold be1, al1. field. assumption. }
  rewrite E1, E2. assert (I1 : rising x1) by (apply rising_map; assumption). assert (L1 : length x1 = length v) by (unfold x1; now rewrite map_length).
  rewrite (rmin_rising x1 I1), (amax_rising x1 I1) by lia. cbn [bind]. rewrite interp_resample by (try assumption; lia). cbn [bind]. rewrite linspace_map, SG.
  rewrite <- linspace_map. set (xr := linspace (nth 0 x1 0) (nth (length x1 - 1) x1 0) npts). rewrite rotate_ok by now rewrite map_length. cbn [bind fst snd]. fold c s.
  pose proof (sin2_cos2 theta) as SC. unfold Rsqr in SC. fold c s in SC.
  set (x2 := map (fun u => / ka * u + - (s * be / ka)) xr).
  assert (E3 : zipwith (fun p q => c * p - s * q) xr (map (fun u => al1 * u + be1) xr) = x2).
  { rewrite <- (map_id xr) at 1. rewrite zip_map2. unfold x2. apply map_ext. intros u. unfold be1, al1. apply (Rmult_eq_reg_r ka); [|assumption]. 
    transitivity (u * (c * c + s * s) - s * be * (c * c + s * s)); [unfold ka; field; assumption|]. replace (c * c + s * s) with 1 by lra. field. assumption. }
  assert (E4 : zipwith (fun p q => s * p + c * q) xr (map (fun u => al1 * u + be1) xr) = map (fun u => al * u + be) x2).
  { rewrite <- (map_id xr) at 1. rewrite zip_map2. unfold x2. rewrite map_map. apply map_ext. intros u. unfold be1, al1. apply (Rmult_eq_reg_r ka); [|assumption]. 
    transitivity ((u * al + (be * (c + s * al) - al * s * be)) * (c * c + s * s)); [unfold ka; field; assumption|]. replace (c * c + s * s) with 1 by lra. unfold ka. field. assumption. }
  rewrite E3, E4. assert (IR : rising xr) by (apply linspace_rising; [apply I1; lia|assumption]). assert (LR : length xr = npts) by apply linspace_length.
  assert (I2 : rising x2) by (apply rising_map; [now apply Rinv_0_lt_compat|assumption]). assert (L2 : length x2 = npts) by (unfold x2; now rewrite map_length).
  rewrite (rmin_rising x2 I2), (amax_rising x2 I2) by lia. cbn [bind]. rewrite interp_resample by (try assumption; lia). cbn [bind].
  assert (P0 : nth 0 x2 0 = nth 0 v 0 / vm).
  { unfold x2. rewrite (nth_map_in _ _ _ _ 0) by lia. unfold xr. rewrite linspace_first by lia. unfold x1. rewrite (nth_map_in _ _ _ _ 0) by lia. unfold x. rewrite (nth_map_in _ _ _ _ 0) by lia. field. split; lra. }
  assert (P1 : nth (length x2 - 1) x2 0 = 1).
  { rewrite L2. unfold x2. rewrite (nth_map_in _ _ _ _ 0) by lia. unfold xr. rewrite linspace_last by lia. rewrite L1. unfold x1. rewrite (nth_map_in _ _ _ _ 0) by lia. unfold x. rewrite (nth_map_in _ _ _ _ 0) by lia. fold vm. field. split; lra. }
  rewrite P0, P1. assert (EV : map (fun u => u * vm) (linspace (nth 0 v 0 / vm) 1 npts) = linspace (nth 0 v 0) vm npts).
  { rewrite (map_ext (fun u => u * vm) (fun u => vm * u + 0)) by (intros; ring). rewrite linspace_map. f_equal; [field; lra|ring]. }
  rewrite EV. f_equal. f_equal. rewrite <- EV, !map_map. apply map_ext. intros u. unfold al, be. field. assumption.
Qed.
Lemma filter_off savgol v i nwind npoly theta npts : filter_iv_data savgol v i false nwind npoly theta npts = Ok (v, i).
Proof. reflexivity. Qed.
