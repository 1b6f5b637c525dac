(** The imported curves with filter and series resistance. *)
From Coq Require Import List ZArith Lia Bool Arith Reals Lra String.
From Verif Require Import Base Model_QtCurrent Float NumPy Spec_CleanData Proof_CleanData Model_CleanData Model_MathFn Spec_RespFn Model_RespFn Proof_RespFn2 Spec_IVData Model_IVData
  Proof_Circuit Proof_IVModels Proof_NumPy Proof_IVLoad Proof_IVData Proof_IVCurve Proof_IFLoad Spec_Offset Proof_Offset.
Import ListNotations.
Open Scope R_scope.
Local Notation length := List.length.
Local Notation rising := Spec_RespFn.increasing.

Section Savgol.
Variable savgol : list R -> Z -> Z -> list R.
Lemma filter_lengths v i fd nw np th n x y : length v = length i -> filter_iv_data savgol v i fd nw np th n = Ok (x, y) -> length x = length y.
Proof.
  intros L H. unfold filter_iv_data in H. destruct fd; cbn [negb] in H; [|injection H as <- <-; assumption].
  destruct (amax v) as [vm|]; [|discriminate]. cbn [bind] in H. destruct (amax i) as [im|]; [|discriminate]. cbn [bind] in H. destruct (guard _ _) as [[]|]; [|discriminate]. cbn [bind] in H.
  destruct (rotate _ _ _) as [[a b]|]; [|discriminate]. cbn [bind fst snd] in H. destruct (rmin a) as [?|]; [|discriminate]. cbn [bind] in H. destruct (amax a) as [?|]; [|discriminate]. cbn [bind] in H.
  destruct (np_interp _ _ _); [|discriminate]. cbn [bind] in H. destruct (rotate _ _ _) as [[a' b']|]; [|discriminate]. cbn [bind fst snd] in H. destruct (rmin a'); [|discriminate]. cbn [bind] in H. destruct (amax a'); [|discriminate]. cbn [bind] in H.
  destruct (np_interp _ a' _) as [r|] eqn:E; [|discriminate]. cbn [bind] in H. injection H as <- <-. apply np_interp_inv in E. destruct E as [-> _]. now rewrite !map_length.
Qed.
Lemma combine_fv x : forall y x' y', map FV x' = x -> map FV y' = y -> List.combine x y = map (fun p => (FV (fst p), FV (snd p))) (List.combine x' y').
Proof. induction x as [|a x IH]; intros y [|a' x'] y' E F; try discriminate; [reflexivity|]. destruct y as [|b y], y' as [|b' y']; try discriminate; [reflexivity|]. cbn in *. injection E as <- E. injection F as <- F. f_equal. now apply IH. Qed.
Lemma Forall2_map_r {A B C} (P : A -> C -> Prop) (f : B -> C) l r : Forall2 P l (map f r) -> Forall2 (fun a b => P a (f b)) l r.
Proof. revert r. induction l as [|a l IH]; intros [|b r] H; inversion H; subst; constructor; auto. Qed.
Lemma processed_inv p v i a b x y : length v = length i -> processed savgol p v i = Ok (a, b, (x, y)) ->
  filter_iv_data savgol v i (p_filter_data p) (p_filter_nwind p) (p_filter_npoly p) (p_filter_theta p) (p_npts p) = Ok (a, b) /\ junction_curve (p_rseries p) a b x y /\ length x = length y.
Proof.
  intros L H. unfold processed in H. destruct (filter_iv_data _ _ _ _ _ _ _ _) as [[a' b']|] eqn:EF; [|discriminate]. cbn [bind fst snd] in H. pose proof (filter_lengths _ _ _ _ _ _ _ _ _ L EF) as LF.
  destruct (p_rseries p) as [rs|] eqn:ER.
  - destruct (series_props a' b' rs LF) as [v' [i' [ES [LS FA]]]]. rewrite ES in H. cbn [bind fst snd] in H. destruct (reals v') as [x'|] eqn:EX; [|discriminate]. cbn [bind] in H. destruct (reals i') as [y'|] eqn:EY; [|discriminate]. cbn [bind] in H.
    injection H as <- <- <- <-. apply reals_inv in EX, EY. subst v' i'. rewrite !map_length in LS. split; [reflexivity|]. split; [|assumption]. split; [assumption|]. rewrite (combine_fv _ _ x' y' eq_refl eq_refl) in FA. apply Forall2_map_r in FA.
    clear - FA. induction FA as [|p q l r [A B] F IH]; constructor; [|assumption]. split; [exact A|]. cbn [snd] in B. now injection B.
  - cbn [correct_series_resistance bind fst snd] in H. rewrite !reals_map in H. cbn [bind] in H. injection H as <- <- <- <-. split; [reflexivity|]. split; [split; reflexivity|assumption].
Qed.
Lemma load_lengths s m u w x y : sorting s -> load_iv s m u w = Ok (map FV x, map FV y) -> length x = length y.
Proof. intros S E. destruct (load_props s m u w _ _ S E) as [? [? [_ [_ [L _]]]]]. now rewrite !map_length in L. Qed.
Section Dc.
Variable minimize : (R * R -> R) -> R * R -> R * R.
(** What dciv_curve computes, for all parameters. *)
Lemma dc_curve s m p V I d : sorting s -> dciv_curve minimize savgol s m p = Ok (V, I, d) ->
  exists v i x y, load_iv s m (p_v_fmt p) (p_i_fmt p) = Ok (map FV v, map FV i) /\
    (let range := search_range (p_voffset_range p) in let V := map (fun a => a * p_v_multiplier p) v in let I := map (fun a => a * p_i_multiplier p) i in
     (~ bipolar range V -> dc_offset d = (match p_voffset p with Some a => a | None => 0 end, match p_ioffset p with Some b => b | None => 0 end)) /\
     (bipolar range V -> searched minimize (samples_between range V I) range (p_voffset p) (p_ioffset p) (dc_offset d))) /\
    filter_iv_data savgol (map (fun a => a * p_v_multiplier p - fst (dc_offset d)) v) (map (fun a => a * p_i_multiplier p - snd (dc_offset d)) i)
      (p_filter_data p) (p_filter_nwind p) (p_filter_npoly p) (p_filter_theta p) (p_npts p) = Ok (dc_vraw d, dc_iraw d) /\
    junction_curve (p_rseries p) (dc_vraw d) (dc_iraw d) x y /\
    best_line (samples_within (fst (p_vrn p)) (snd (p_vrn p)) x y) (/ dc_rn d) (- dc_vint d / dc_rn d) /\
    (exists b, best_line (samples_within (p_vrsg p - 1 / 10 ^ 4) (p_vrsg p + 1 / 10 ^ 4) x y) (/ dc_rsg d) b) /\
    match p_vgap p with Some g => dc_vgap d = g | None => find_gap_voltage x y (p_vrn p) = Ok (dc_vgap d) end /\
    (rising x -> 0 < dc_vgap d -> forall k, (k < p_npts p)%nat -> joined x y (nth 0 y 0) (nth (length x - 1) y 0) (nth k V 0 * dc_vgap d) (nth k I 0 * dc_igap d)).
Proof.
  intros SO H. pose proof (dc_metadata _ _ _ _ _ _ _ _ H) as MD. destruct MD as [_ [_ [_ [_ [_ [_ [_ [MI _]]]]]]]].
  unfold dciv_curve in H. destruct (loaded s m p) as [[v i]|] eqn:EL; [|discriminate]. cbn [bind fst snd] in H. destruct (correct_offset _ _ _ _ _ _) as [[[v1 i1] o]|] eqn:EO; [|discriminate]. cbn [bind] in H.
  apply loaded_inv in EL. destruct EL as [x0 [y0 [EL [-> ->]]]]. pose proof (load_lengths _ _ _ _ _ _ SO EL) as L0.
  pose proof (offset_inv _ _ _ _ _ _ _ _ _ EO) as [E1 E2].
  destruct (processed _ _ _ _) as [[[v2 i2] [x y]]|] eqn:EP; [|discriminate]. cbn [bind] in H.
  destruct (match p_vgap p with Some g => Ok g | None => find_gap_voltage x y (p_vrn p) end) as [g|] eqn:EG; [|discriminate]. cbn [bind] in H.
  destruct (find_normal_resistance _ _ _) as [[rn vint]|] eqn:EN; [|discriminate]. cbn [bind] in H. destruct (find_subgap_resistance _ _ _) as [rsg|] eqn:ES; [|discriminate]. cbn [bind] in H.
  destruct (quot g rn) as [ig|] eqn:EQ; [|discriminate]. cbn [bind] in H. apply quot_ok in EQ. destruct EQ as [RN EQ]. destruct (Reqb_spec g 0) as [|G]; [discriminate|]. cbn [negb guard bind] in H.
  destruct (np_interp _ _ _) as [c|] eqn:EI; [|discriminate]. cbn [bind] in H. injection H as <- <- <-. cbn [dc_vgap dc_igap dc_rn dc_rsg dc_vint dc_offset dc_vraw dc_iraw] in *. apply np_interp_inv in EI. destruct EI as [-> [LI1 LI2]]. rewrite !map_length in LI1, LI2.
  apply processed_inv in EP; [|rewrite E1, E2, !map_length; exact L0]. destruct EP as [EF [JC LXY]].
  exists x0, y0, x, y. split; [assumption|]. split.
  { apply (offset_props minimize _ _ _ _ _ v1 i1); [rewrite !map_length; exact L0|exact EO]. }
  subst v1 i1. rewrite !map_map in EF. split; [assumption|]. split; [assumption|].
  destruct (p_vrn p) as [lo hi] eqn:EV. cbn [fst snd]. split; [exact (proj2 (normal_best x y lo hi rn vint LXY EN))|]. split; [exact (proj2 (subgap_best x y (p_vrsg p) rsg LXY ES))|].
  split; [destruct (p_vgap p); [now injection EG|assumption]|].
  intros INC GP k K. rewrite (nth_map_in (fun a => a / g) (linspace _ _ _) k 0 0) by now rewrite linspace_length. rewrite (nth_map_in (np_interp1 _ _) _ k 0 0) by now rewrite map_length, linspace_length.
  rewrite (nth_map_in (fun a => a / g) (linspace _ _ _) k 0 0) by now rewrite linspace_length.
  set (t := nth k (linspace _ _ _) 0). assert (IG : ig <> 0) by (intros ->; lra).
  rewrite interp_scaled by (try assumption; lia). replace (t / g * g) with t by (field; assumption). replace (np_interp1 x y t / ig * ig) with (np_interp1 x y t) by (field; assumption).
  apply interp_joined; [assumption|lia|lia].
Qed.
End Dc.
Lemma pumped_curve s m dc p V I vo io : sorting s -> iv_curve savgol s m dc p = Ok (V, I) ->
  (p_voffset p = Some vo /\ p_ioffset p = Some io) \/ ((p_voffset p = None \/ p_ioffset p = None) /\ dc_offset dc = (vo, io)) ->
  exists v i xf yf x y, load_iv s m (p_v_fmt p) (p_i_fmt p) = Ok (map FV v, map FV i) /\
    filter_iv_data savgol (map (fun a => a * p_v_multiplier p - vo) v) (map (fun a => a * p_i_multiplier p - io) i)
      (p_filter_data p) (p_filter_nwind p) (p_filter_npoly p) (p_filter_theta p) (p_npts p) = Ok (xf, yf) /\
    junction_curve (p_rseries p) xf yf x y /\ length V = p_npts p /\ length I = p_npts p /\
    (forall k, (k < p_npts p)%nat -> nth k V 0 * dc_vgap dc = - p_vmax p + INR k * (2 * p_vmax p / INR (p_npts p - 1))) /\
    (rising x -> 0 < dc_vgap dc -> forall k, (k < p_npts p)%nat -> joined x y 0 0 (nth k V 0 * dc_vgap dc) (nth k I 0 * dc_igap dc)).
Proof.
  intros SO H OF. unfold iv_curve in H. destruct (loaded s m p) as [[v i]|] eqn:EL; [|discriminate]. cbn [bind fst snd] in H.
  assert (EO : match p_voffset p with Some vo => match p_ioffset p with Some io => (vo, io) | None => dc_offset dc end | None => dc_offset dc end = (vo, io)).
  { destruct OF as [[-> ->]|[[->| ->] ->]]; try reflexivity. now destruct (p_voffset p). }
  rewrite EO in H. apply loaded_inv in EL. destruct EL as [x0 [y0 [EL [-> ->]]]]. pose proof (load_lengths _ _ _ _ _ _ SO EL) as L0.
  destruct (processed _ _ _ _) as [[[v2 i2] [x y]]|] eqn:EP; [|discriminate]. cbn [bind] in H. apply processed_inv in EP; [|rewrite !map_length; exact L0]. destruct EP as [EF [JC LXY]]. rewrite !map_map in EF.
  destruct (Reqb_spec (dc_vgap dc) 0) as [|G]; [discriminate|]. destruct (Reqb_spec (dc_igap dc) 0) as [|IG]; [discriminate|]. cbn [negb andb guard bind] in H.
  destruct (np_interp_zero _ _ _) as [c|] eqn:EI; [|discriminate]. cbn [bind] in H. injection H as <- <-. apply interp_zero_inv in EI. destruct EI as [N [LE ->]]. rewrite !map_length in N, LE.
  exists x0, y0, v2, i2, x, y. split; [assumption|]. split; [assumption|]. split; [assumption|]. rewrite !map_length, linspace_length. split; [reflexivity|]. split; [reflexivity|]. split.
  { intros k K. rewrite grid_nth by assumption. now apply div_mul. }
  intros INC GP k K. set (V := map (fun a => a / dc_vgap dc) (linspace _ _ _)). rewrite (nth_map_in _ V k 0 0) by (unfold V; now rewrite map_length, linspace_length).
  set (T := nth k V 0). set (t := T * dc_vgap dc). assert (ET : T = t / dc_vgap dc) by (unfold t; field; assumption). clearbody t. rewrite ET. clear ET.
  rewrite ?map_length. rewrite !(nth_map_in (fun a => a / dc_vgap dc) x _ _ 0) by (rewrite ?map_length; lia).
  assert (SC : forall a b, Rltb (a / dc_vgap dc) (b / dc_vgap dc) = Rltb a b).
  { intros a b. destruct (Rltb_spec (a / dc_vgap dc) (b / dc_vgap dc)) as [A|A], (Rltb_spec a b) as [B|B]; try reflexivity; exfalso.
    - unfold Rdiv in A. apply Rmult_lt_reg_r in A; [lra|now apply Rinv_0_lt_compat].
    - unfold Rdiv in A. apply Rnot_lt_le, Rmult_le_reg_r in A; [lra|now apply Rinv_0_lt_compat]. }
  rewrite !SC. rewrite interp_scaled by (try assumption; lia).
  pose proof (zero_joined x y t INC ltac:(lia) ltac:(lia)) as Z. destruct (_ || _)%bool; [now rewrite Rmult_0_l|]. now rewrite div_mul.
Qed.
End Savgol.
