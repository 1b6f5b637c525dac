(** Proofs about response functions: the smeared ideal curve, and the classes. *)
From Coq Require Import List ZArith Lia Lra Bool Arith Reals String.
From Coquelicot Require Import Complex.
From Verif Require Import Base Model_QtCurrent Float NumPy Proof_NumPy Model_MathFn Spec_MathFn Proof_Circuit Proof_IVModels
  Proof_Slope Proof_Filters Proof_KK Spec_RespFn Model_CleanData Proof_CleanData Model_IVModels Model_RespFn Spec_RespParams Proof_Nodes Proof_RespFn Proof_RespFn2 Proof_RespFn3.
Import ListNotations.
Open Scope R_scope.
Local Notation length := List.length.

(** ** A sum of two curves *)
Lemma nsum_one n f j : (j < n)%nat -> (forall i, (i < n)%nat -> 0 <= f i) -> 0 < f j -> 0 < nsum n f.
Proof.
  intros Hj P F. apply Rlt_le_trans with (nsum n (fun i => if (i =? j)%nat then f i else 0)).
  - rewrite (nsum_single n _ j Hj); [now rewrite Nat.eqb_refl|]. intros i _ N. destruct (Nat.eqb_spec i j); [contradiction|reflexivity].
  - apply nsum_le. intros i Hi. destruct (Nat.eqb i j); [lra|now apply P].
Qed.
Lemma conv_peak x s e m y k : gauss_conv x s e = Ok y -> window_points (s * e) m -> (k < length x)%nat ->
  (forall j, (j < m)%nat -> 0 <= nth (mirror (length x) (Z.of_nat k + Z.of_nat (m / 2) - Z.of_nat j)) x 0) -> 0 < nth k x 0 -> 0 < nth k y 0.
Proof.
  intros H W Hk P F. assert (E : exists y, gauss_conv x s e = Ok y) by eauto. apply conv_ok in E. destruct E as [m' [L [W' M]]]. rewrite (points_unique _ _ _ W' W) in *. clear m' W'.
  destruct (points_exist _ L) as [m' [W' M3]]. rewrite (points_unique _ _ _ W' W) in *. clear m' W'. destruct (conv_formula x s e m y H W) as [_ Y]. rewrite Y by assumption.
  assert (M2 : (m / 2 < m)%nat) by (apply Nat.div_lt; lia). apply (nsum_one _ _ (m / 2)%nat M2).
  - intros i Hi. apply Rmult_le_pos; [left; apply weight_pos; lia|now apply P].
  - apply Rmult_lt_0_compat; [apply weight_pos; lia|]. replace (mirror (length x) (Z.of_nat k + Z.of_nat (m / 2) - Z.of_nat (m / 2))) with k; [assumption|].
    unfold mirror. replace (Z.of_nat k + Z.of_nat (m / 2) - Z.of_nat (m / 2))%Z with (Z.of_nat k) by lia. destruct (Z.ltb_spec (Z.of_nat k) 0); [lia|]. destruct (Z.leb_spec (Z.of_nat (length x)) (Z.of_nat k)); [lia|]. now rewrite Nat2Z.id.
Qed.
Lemma reflect_plus a b : length a = length b -> (1 <= length a)%nat -> reflect (zipwith Rplus a b) = zipwith Rplus (reflect a) (reflect b).
Proof.
  intros L H. assert (LZ : length (zipwith Rplus a b) = length a) by now apply zipwith_length. apply (list_ext _ _ 0).
  - rewrite zipwith_length; rewrite !reflect_length; lia.
  - intros k Hk. rewrite reflect_length in Hk by lia. rewrite (nth_zipwith _ _ _ _ 0 0 0) by (rewrite !reflect_length; lia). destruct (Nat.lt_ge_cases k (length a - 1)) as [Q|Q].
    + rewrite !reflect_left by lia. rewrite LZ. rewrite (nth_zipwith _ _ _ _ 0 0 0) by lia. rewrite <- L. ring.
    + rewrite !reflect_high by lia. rewrite LZ. rewrite (nth_zipwith _ _ _ _ 0 0 0) by lia. now rewrite <- L.
Qed.
Lemma smear_plus w a b s u0 gb : length a = length w -> length b = length w -> smear_curve w a s = Ok u0 -> gauss_conv b (s / (nth 1 w 0 - nth 0 w 0)) 3 = Ok gb ->
  smear_curve w (zipwith Rplus a b) s = Ok (zipwith Rplus u0 gb).
Proof.
  intros LA LB H G. unfold smear_curve in *. apply bind_ok in H. destruct H as [v1 [E1 H]]. apply bind_ok in H. destruct H as [v0 [E0 H]]. rewrite E1, E0. cbn [bind].
  assert (2 <= length w)%nat. { destruct (Nat.lt_ge_cases (length w) 2) as [Q|Q]; [rewrite pyget_err in E1 by lia; discriminate|assumption]. }
  rewrite (pyget_nth w _ 0) in E1 by lia. rewrite (pyget_nth w _ 0) in E0 by lia. injection E1 as <-. injection E0 as <-. change (1 <? 0)%Z with false in *. change (0 <? 0)%Z with false in *. cbv iota in *. change (Z.to_nat 1) with 1%nat in *. change (Z.to_nat 0) with 0%nat in *.
  apply bind_ok in H. destruct H as [t [E H]]. rewrite E. cbn [bind]. rewrite bcast_eq in H by assumption. cbn [bind] in H. apply bind_ok in H. destruct H as [g [EG H]].
  assert (LZ : length (zipwith Rplus a b) = length w) by (rewrite zipwith_length; lia). rewrite bcast_eq by assumption. cbn [bind].
  assert (LM : length (zipwith Rminus a w) = length b) by (rewrite zipwith_length; lia). pose proof (conv_length _ _ _ _ EG) as LG. pose proof (conv_length _ _ _ _ G) as LGB.
  pose proof (conv_linear 1 1 _ _ _ _ _ _ LM EG G) as Q. replace (zipwith Rminus (zipwith Rplus a b) w) with (zipwith (fun u v => 1 * u + 1 * v) (zipwith Rminus a w) b).
  - rewrite Q. cbn [bind]. rewrite bcast_eq in H by lia. injection H as <-. rewrite bcast_eq by (rewrite zipwith_length; lia). f_equal. apply (list_ext _ _ 0).
    + rewrite !zipwith_length; try lia; rewrite zipwith_length; lia.
    + intros k Hk. rewrite zipwith_length in Hk by (rewrite zipwith_length; lia). rewrite zipwith_length in Hk by lia.
      rewrite !(nth_zipwith _ _ _ _ 0 0 0) by (rewrite ?zipwith_length; lia). ring.
  - apply (list_ext _ _ 0).
    + rewrite !zipwith_length; try lia; rewrite zipwith_length; lia.
    + intros k Hk. rewrite zipwith_length in Hk by lia. rewrite !(nth_zipwith _ _ _ _ 0 0 0) by (rewrite ?zipwith_length; lia). ring.
Qed.

(** ** The smeared ideal curve *)
Section Peak.
Variables spline dspline : list R -> list R -> Z -> R -> R.
Variables (v c : list R) (p : params) (s : R).
Hypothesis G : grid_ok v.
Hypothesis LV : Z.of_nat (length v) = 7001%Z.
Hypothesis HN : forall k, (k < length v)%nat -> nth k v 0 = INR k / 200.
Hypothesis HC : length c = length v.
Hypothesis HS : v_smear p = Some s.
Hypothesis SR : 1 / 600 <= s <= 1 / 4.
Hypothesis HK : (1 <= kk_n p)%Z.
Hypothesis HO : (1 <= spline_order p <= 5)%Z.
Hypothesis HE : check_error p = false.

Lemma peak_index : exists k, argmin (map (fun v => Rabs (v - 1)) v) = Ok (Z.of_nat k) /\ Z.of_nat k = 200%Z.
Proof.
  destruct (argmin_spec (map (fun v => Rabs (v - 1)) v)) as [k [E [K M]]]. { intros Q. apply (f_equal (@List.length R)) in Q. rewrite map_length in Q. simpl in Q. lia. }
  exists k. split; [assumption|]. rewrite map_length in *. assert (EJ : exists j, (j < length v)%nat /\ Z.of_nat j = 200%Z) by (exists (Z.to_nat 200); lia). destruct EJ as [j [J1 J2]]. specialize (M j J1).
  assert (D : forall i, (i < length v)%nat -> nth i (map (fun v => Rabs (v - 1)) v) 0 = Rabs (IZR (Z.of_nat i) / 200 - 1)).
  { intros i Hi. rewrite (nth_indep _ 0 (Rabs (0 - 1))) by (rewrite map_length; lia). rewrite (map_nth (fun v => Rabs (v - 1)) v 0 i). rewrite HN by assumption. now rewrite INR_IZR_INZ. }
  rewrite !D in M by assumption. rewrite J2 in M. replace (200 / 200 - 1) with 0 in M by lra. rewrite Rabs_R0 in M. pose proof (Rabs_pos (IZR (Z.of_nat k) / 200 - 1)).
  assert (Z0 : IZR (Z.of_nat k) / 200 - 1 = 0). { destruct (Req_dec (IZR (Z.of_nat k) / 200 - 1) 0) as [Q|Q]; [assumption|]. apply Rabs_pos_lt in Q. lra. }
  apply eq_IZR. lra.
Qed.
Lemma peak_curves : exists k m g, Z.of_nat k = 200%Z /\ argmin (map (fun v => Rabs (v - 1)) v) = Ok (Z.of_nat k) /\ window_points (s / (1 / 200) * 3) m /\ (m <= 305)%nat /\
  gauss_conv (list_set (repeat 0 (length v)) k 1) (s / (1 / 200)) 3 = Ok g /\ length g = length v /\ 0 < nth k g 0 /\ (forall j, 0 <= nth j g 0).
Proof.
  destruct peak_index as [k [E K]]. assert (S3 : 1 <= s / (1 / 200) * 3) by lra. destruct (points_exist _ S3) as [m [W M3]]. exists k, m.
  assert (MM : (m <= 305)%nat). { destruct W as [W _]. assert (/ 10 ^ 5 <= 1). { rewrite <- Rinv_1. apply Rinv_le_contravar; lra. } apply INR_le. rewrite (INR_IZR_INZ 305). change (Z.of_nat 305) with 305%Z. lra. }
  assert (LS : length (list_set (repeat 0 (length v)) k 1) = length v). { rewrite list_set_length. apply repeat_length. }
  assert (X : exists g, gauss_conv (list_set (repeat 0 (length v)) k 1) (s / (1 / 200)) 3 = Ok g). { apply conv_ok. exists m. split; [assumption|]. split; [assumption|]. rewrite LS. lia. }
  destruct X as [g X]. exists g. repeat split; try assumption; try apply W.
  - rewrite <- LS. now apply (conv_length _ _ _ _ X).
  - apply (conv_peak _ _ _ _ _ _ X W); [rewrite LS; lia| |].
    + intros j _. rewrite nth_list_set by (rewrite repeat_length; lia). destruct (_ =? _)%nat; [lra|]. match goal with |- 0 <= nth ?a _ _ => destruct (Nat.lt_ge_cases a (length v)) as [Q|Q] end; [rewrite nth_repeat' by assumption|rewrite nth_overflow by (rewrite repeat_length; assumption)]; lra.
    + rewrite nth_list_set by (rewrite repeat_length; lia). rewrite Nat.eqb_refl. lra.
  - intros j. destruct (Nat.lt_ge_cases j (length g)) as [Q|Q]; [|rewrite nth_overflow by assumption; lra].
    assert (B : Forall (fun a => 0 <= a <= 1) g). { apply (conv_bounds _ _ _ _ 0 1 X). apply Forall_forall. intros a Ha. destruct (In_nth _ _ 0 Ha) as [i [Hi <-]]. rewrite LS in Hi. rewrite nth_list_set by (rewrite repeat_length; lia). destruct (_ =? _)%nat; [lra|]. rewrite nth_repeat' by assumption. lra. }
    rewrite Forall_forall in B. apply B. now apply nth_In.
Qed.

Lemma step_is : nth (length v - 1) v 0 - nth (length v - 2) v 0 = 1 / 200.
Proof. rewrite !HN by lia. replace (length v - 1)%nat with (Datatypes.S (length v - 2)) by lia. rewrite S_INR. lra. Qed.
Lemma first_is : nth 1 (reflect v) 0 - nth 0 (reflect v) 0 = 1 / 200.
Proof. rewrite reflect_first; [apply step_is|lia|rewrite HN by lia; change (INR 0) with 0; lra]. Qed.

Lemma peak_higher : exists g r0 r k, 
  (let tmp := repeat 0%R (List.length v) in
   let* idx := argmin (map (fun v => Rabs (v - 1)) v) in
   let* tmp := pyset tmp idx 1%R in
   let* v1 := pyget v 1 in
   let* v0 := pyget v 0 in
   let* g := gauss_conv tmp (s / (v1 - v0)) 3 in
   bcast Rplus g c) = Ok g /\
  respfn_init spline dspline v c p = Ok r0 /\ respfn_init spline dspline v g p = Ok r /\ nth k (rf_voltage r) 0 = 1 /\ (k < length (rf_current r))%nat /\ nth k (rf_current r0) 0 < nth k (rf_current r) 0.
Proof.
  destruct peak_curves as [k [m [g [K [E [W [MM [X [LG [GP GN]]]]]]]]]].
  assert (OK : forall d, length d = length v -> exists r, respfn_init spline dspline v d p = Ok r).
  { intros d Ld. apply init_ok; try assumption. rewrite HS, step_is. lra. }
  destruct (OK c HC) as [r0 R0]. destruct (OK (zipwith Rplus g c)) as [r R1]; [rewrite zipwith_length; lia|].
  exists (zipwith Rplus g c), r0, r, (length v - 1 + k)%nat.
  split; [|split; [assumption|split; [assumption|]]].
  - cbv zeta. rewrite E. cbn [bind]. rewrite pyset_nth by (rewrite repeat_length; lia). destruct (Z.ltb_spec (Z.of_nat k) 0); [lia|]. rewrite Nat2Z.id. cbn [bind].
    rewrite !(pyget_nth v _ 0) by lia. change (1 <? 0)%Z with false. change (0 <? 0)%Z with false. cbv iota. change (Z.to_nat 1) with 1%nat. change (Z.to_nat 0) with 0%nat. cbn [bind].
    replace (nth 1 v 0 - nth 0 v 0) with (1 / 200) by (rewrite !HN by lia; change (INR 1) with 1; change (INR 0) with 0; lra). rewrite X. cbn [bind]. apply bcast_eq. lia.
  - apply init_inv in R0. destruct R0 as [L [Z [F [EV0 [_ [S0 _]]]]]]. specialize (S0 s HS). apply init_inv in R1. destruct R1 as [_ [_ [_ [EV1 [_ [S1 _]]]]]]. specialize (S1 s HS).
    rewrite EV1. rewrite reflect_right by assumption. split; [rewrite HN by lia; rewrite INR_IZR_INZ, K; lra|].
    set (w := reflect v) in *. assert (LW : length w = (2 * length v - 1)%nat) by now apply reflect_length. assert (LR : forall d, length d = length v -> length (reflect d) = length w) by (intros d Ld; rewrite reflect_length; lia).
    assert (CO : exists gg, gauss_conv (reflect g) (s / (nth 1 w 0 - nth 0 w 0)) 3 = Ok gg). { apply conv_ok. exists m. unfold w at 1 2 3 4. rewrite first_is. split; [lra|]. split; [assumption|]. rewrite LR by assumption. lia. }
    destruct CO as [gg CO]. rewrite reflect_plus in S1 by lia. 
    assert (CM : zipwith Rplus (reflect g) (reflect c) = zipwith Rplus (reflect c) (reflect g)). { apply (list_ext _ _ 0); [rewrite !zipwith_length; rewrite !LR; lia|]. intros i Hi. rewrite zipwith_length in Hi by (rewrite !LR; lia). rewrite !(nth_zipwith _ _ _ _ 0 0 0) by (rewrite ?LR in *; lia). ring. }
    rewrite CM in S1. rewrite (smear_plus w (reflect c) (reflect g) s _ gg (LR c HC) (LR g LG) S0 CO) in S1. injection S1 as <-.
    assert (LU : length (rf_current r0) = length w). { unfold smear_curve in S0. do 3 (apply bind_ok in S0; destruct S0 as [? [_ S0]]). apply bind_ok in S0. destruct S0 as [? [S2 S0]]. rewrite bcast_eq in S2 by now apply LR. injection S2 as <-. apply bind_ok in S0. destruct S0 as [? [S2 S0]]. apply conv_length in S2. rewrite zipwith_length in S2 by now apply LR. rewrite bcast_eq in S0 by (rewrite S2; now apply LR). injection S0 as <-. rewrite zipwith_length; rewrite S2; now apply LR. }
    assert (LGG : length gg = length w) by (rewrite (conv_length _ _ _ _ CO); now apply LR). split; [rewrite zipwith_length; lia|].
    rewrite (nth_zipwith _ _ _ _ 0 0 0) by lia. assert (0 < nth (length v - 1 + k) gg 0); [|lra]. rewrite <- LG.
    assert (LGR : length (reflect g) = length w) by now apply LR. unfold w in CO. rewrite first_is in CO. fold w in CO. apply (conv_peak _ _ _ _ _ _ CO W).
    + rewrite LGR. lia.
    + intros j Hj. assert (m / 2 <= 153)%nat by (apply Nat.div_le_upper_bound; lia). assert (Hm : (m <= 2 * (m / 2) + 1)%nat). { pose proof (Nat.div_mod_eq m 2). pose proof (Nat.mod_upper_bound m 2 ltac:(lia)). lia. }
      rewrite LGR. unfold mirror. destruct (Z.ltb_spec (Z.of_nat (length g - 1 + k) + Z.of_nat (m / 2) - Z.of_nat j) 0); [lia|]. destruct (Z.leb_spec (Z.of_nat (length w)) (Z.of_nat (length g - 1 + k) + Z.of_nat (m / 2) - Z.of_nat j)); [lia|].
      rewrite reflect_high by lia. apply GN.
    + rewrite reflect_right by lia. assumption.
Qed.
End Peak.

Lemma perfect_peak spline dspline p s : v_smear p = Some s -> 1 / 600 <= s <= 1 / 4 -> (1 <= kk_n p)%Z -> (1 <= spline_order p <= 5)%Z -> check_error p = false ->
  exists r0 r k, respfn_init spline dspline VINIT (map ideal_current VINIT) p = Ok r0 /\ respfn_perfect spline dspline p = Ok r /\
    (k < length (rf_current r))%nat /\ nth k (rf_voltage r) 0 = 1 /\ nth k (rf_current r0) 0 < nth k (rf_current r) 0.
Proof.
  intros HS SR HK HO HE. pose proof vinit_grid as G. pose proof vinit_length as L. pose proof npts_Z as LV. pose proof vinit_nth as HN. rewrite <- L in *. unfold respfn_perfect. rewrite HS. unfold perfect_smeared.
  destruct (peak_higher spline dspline VINIT (map ideal_current VINIT) p s G LV HN (map_length _ _) HS SR HK HO HE) as [g [r0 [r [k [P [R0 [R1 [V [K Q]]]]]]]]].
  exists r0, r, k. cbv zeta in P. rewrite P. cbn [bind]. now repeat split.
Qed.

(** ** Classes *)
Lemma table_eq a b k : lookup (base_table a b) k = with_points a b k.
Proof. reflexivity. Qed.
Lemma class_table cl kw k : NoDup (map fst kw) -> lookup (class_params cl kw) k = match lookup kw k with Some v => Some v | None => class_default cl k end.
Proof. intros N. rewrite class_lookup by assumption. destruct (lookup kw k); [reflexivity|]. destruct cl; apply table_eq. Qed.
Lemma class_documented cl k : k <> "max_npts_dc"%string -> k <> "max_npts_kk"%string -> lookup (class_params cl []) k = documented k.
Proof.
  intros N1 N2. rewrite class_table by constructor. cbn [lookup]. unfold documented, class_default, with_points. apply String.eqb_neq in N1, N2. destruct cl; now rewrite N1, N2.
Qed.
Lemma documented_not : lookup (class_params FromIVData []) "max_npts_dc" = Some (VInt 81) /\ lookup (class_params FromIVData []) "max_npts_kk" = Some (VInt 101) /\
  lookup (class_params Exponential []) "max_npts_kk" = Some (VInt 251) /\ documented "max_npts_dc" = Some (VInt 101) /\ documented "max_npts_kk" = Some (VInt 151).
Proof. repeat split. Qed.

Section Classes.
Variables spline dspline : list R -> list R -> Z -> R -> R.
Lemma vinit_accepts c p : usable_params p -> length c = length VINIT -> exists r, respfn_init spline dspline VINIT c p = Ok r.
Proof.
  intros [HK [HO [HE HS]]] L. apply init_ok; try assumption; [exact vinit_grid|]. destruct (v_smear p); [|exact I].
  pose proof vinit_length as LV. pose proof npts_Z. rewrite LV. assert (E1 : nth (npts - 1) VINIT 0 = 35) by apply vinit_last. assert (E2 : nth (npts - 2) VINIT 0 = 35 - 1 / 200).
  { rewrite vinit_nth by lia. rewrite minus_INR by lia. rewrite npts_R. change (INR 2) with (1 + 1). lra. } rewrite E1, E2. lra.
Qed.
Lemma polynomial_accepts n p : usable_params p -> exists r, respfn_polynomial spline dspline n p = Ok r.
Proof. intros F. apply vinit_accepts; [assumption|]. apply map_length. Qed.
Lemma mapM_len {A B} (f : A -> res B) l : (forall x, In x l -> exists y, f x = Ok y) -> exists ys, mapM f l = Ok ys /\ length ys = length l.
Proof.
  induction l as [|x l IH]; intros H; [exists []; now split|]. destruct (H x (or_introl eq_refl)) as [y E]. destruct IH as [ys [E' L]]; [intros; apply H; now right|].
  exists (y :: ys). cbn [mapM]. rewrite E, E'. split; [reflexivity|]. cbn [List.length]. now rewrite L.
Qed.
Lemma exponential_accepts vgap rn rsg agap p : usable_params p -> rn <> 0 -> exists r, respfn_exponential spline dspline vgap rn rsg agap p = Ok r.
Proof.
  intros F N. unfold respfn_exponential. destruct (mapM_len (fun v => exponential v vgap rn rsg agap "fixed"%string) VINIT) as [c [-> L]].
  - intros x _. unfold exponential. destruct (Reqb_spec rn 0); [contradiction|]. eexists. reflexivity.
  - cbn [bind]. now apply vinit_accepts.
Qed.
Lemma from_iv_accepts v c vmax f l p : usable_params p -> increasing v -> length c = length v -> vmax <= 50 -> (f <= l < length v)%nat ->
  (forall i, (i < length v)%nat -> (0 < nth i v 0 < vmax <-> (f <= i <= l)%nat)) -> exists r, respfn_from_iv spline dspline v c vmax p = Ok r.
Proof.
  intros F I HC HV FL HU. unfold respfn_from_iv. destruct (import_spec v c vmax f l) as [i [E [L _]]]; try assumption; try apply FL. rewrite E. cbn [bind]. now apply vinit_accepts.
Qed.
Lemma perfect_accepts p : usable_params p -> v_smear p = None -> exists r, respfn_perfect spline dspline p = Ok r /\ (forall x, idc r x = ideal_current x) /\ (forall x, ikk r x = perfect_kk_elt 100 x) /\
  (forall x, didc r x = Err TypeError) /\ (forall x, dikk r x = Err TypeError).
Proof. intros _ N. unfold respfn_perfect. rewrite N. eexists. split; [reflexivity|]. repeat split. Qed.
Lemma slopes_there v c p r : respfn_init spline dspline v c p = Ok r -> forall x, (exists y, didc r x = Ok y) /\ exists y, dikk r x = Ok y.
Proof. intros H x. apply init_inv in H. destruct H as [_ [_ [_ [_ [_ [_ [_ [f [df [_ [E1 E2]]]]]]]]]]]. unfold didc, dikk. rewrite E1, E2. split; eauto. Qed.

Lemma constant_not_odd p : usable_params p -> v_smear p = None -> exists r, respfn_init spline dspline VINIT (map (fun _ => 1) VINIT) p = Ok r /\ ~ odd_list (rf_current r).
Proof.
  intros F N. destruct (vinit_accepts (map (fun _ => 1) VINIT) p F (map_length _ _)) as [r H]. exists r. split; [assumption|]. intros O.
  apply (object_current spline dspline VINIT (map (fun _ => 1) VINIT) p r (map_length _ _) H N) in O. pose proof vinit_length. pose proof npts_Z.
  rewrite (nth_indep _ 0 1) in O by (rewrite map_length; lia). rewrite (map_nth (fun _ => 1) VINIT 1) in O. lra.
Qed.
End Classes.

Lemma import_not_zero : exists i, import_iv [0; 1 / 2; 1] [0; 1 / 4; 1] (9 / 5) = Ok (VINIT, i) /\ nth 0 i 0 = 1 / 4.
Proof.
  destruct (import_spec [0; 1 / 2; 1] [0; 1 / 4; 1] (9 / 5) 1 2) as [i [E [L H]]].
  - intros a b A B. destruct b as [|[|[|b]]]; [lia| | |simpl in B; lia]; destruct a as [|[|a]]; try lia; simpl; lra.
  - reflexivity.
  - lra.
  - lia.
  - simpl. lia.
  - intros a A. destruct a as [|[|[|a]]]; [| | |simpl in A; lia]; simpl; split; intros; try lia; try lra.
  - exists i. split; [assumption|]. pose proof npts_Z. destruct (H 0%nat) as [Q _]; [rewrite vinit_length; lia|]. apply Q. simpl. lra.
Qed.

(** ** Corollaries in the words of the specification *)
Lemma sample_case : exists idx, sample_curve (reflect VINIT) (reflect VINIT) 101 (1 / 4) = Ok idx.
Proof. destruct (sample_accepts (fun _ _ _ _ => 0) (fun _ _ _ _ => 0) VINIT (reflect VINIT) 101 (1 / 4) vinit_grid eq_refl ltac:(lra)) as [i [H _]]. now exists i. Qed.
Lemma bad_range spline dspline v c p : (1 <= length v)%nat -> (nth 0 v 0 <> 0 \/ nth (length v - 1) v 0 <= 5) -> respfn_init spline dspline v c p = Err AssertionError.
Proof. intros L [H|H]; [now apply not_zero|now apply too_low]. Qed.
Lemma uneven_rejected spline dspline v c p : (2 <= length v)%nat -> nth 0 v 0 = 0 -> 5 < nth (length v - 1) v 0 -> v_smear p = None ->
  ~ evenly_spaced v -> respfn_init spline dspline v c p = Err AssertionError.
Proof.
  intros L Z F N E. apply uneven; try assumption. apply Classical_Pred_Type.not_all_ex_not in E. destruct E as [k E]. exists k. apply Classical_Prop.imply_to_and in E. destruct E as [E1 E2]. split; [assumption|lra].
Qed.
Lemma few_increasing : increasing [0; 2; 4; 6].
Proof. intros a b A B. destruct b as [|[|[|[|b]]]]; [lia| | | |simpl in B; lia]; destruct a as [|[|[|a]]]; try lia; simpl; lra. Qed.
Lemma responses r v : resp r v = (ikk r v, idc r v) /\ resp_conj r v = Cconj (resp r v) /\ resp_swap r v = Cmult Ci (Cconj (resp r v)) /\ call r v = resp r v.
Proof.
  unfold call, resp, resp_conj, resp_swap, ikk, idc, Cconj, Cminus, Cplus, Cmult, Copp, Ci, RtoC. cbn [fst snd]. repeat split; apply injective_projections; cbn [fst snd]; ring.
Qed.
Lemma resampled v c vmax f l : increasing v -> length c = length v -> vmax <= 50 -> (f <= l < length v)%nat ->
  (forall i, (i < length v)%nat -> (0 < nth i v 0 < vmax <-> (f <= i <= l)%nat)) ->
  exists i, import_iv v c vmax = Ok (VINIT, i) /\ length i = length VINIT /\
  forall k, (k < length VINIT)%nat ->
    (nth k VINIT 0 <= nth f v 0 -> nth k i 0 = nth f c 0) /\
    (forall j, (f <= j < l)%nat -> nth j v 0 <= nth k VINIT 0 <= nth (S j) v 0 ->
       nth k i 0 = chord (nth j v 0) (nth j c 0) (nth (S j) v 0) (nth (S j) c 0) (nth k VINIT 0)) /\
    (nth l v 0 <= nth k VINIT 0 -> nth k i 0 - nth l c 0 = nth k VINIT 0 - nth l v 0).
Proof.
  intros I HC HV FL HU. destruct (import_spec v c vmax f l) as [i [E [L H]]]; try assumption; try apply FL. exists i. split; [assumption|]. split; [assumption|]. intros k Hk.
  assert (X : nth k VINIT 0 = INR k / 200) by (apply vinit_nth; now rewrite <- vinit_length). rewrite X. destruct (H k Hk) as [H1 [H2 H3]]. split; [assumption|]. split; [assumption|]. intros Q. rewrite H3 by assumption. lra.
Qed.
Lemma resampled_grid v c vmax f l : increasing v -> length c = length v -> vmax <= 50 -> (f <= l < length v)%nat ->
  (forall i, (i < length v)%nat -> (0 < nth i v 0 < vmax <-> (f <= i <= l)%nat)) ->
  exists V i, import_iv v c vmax = Ok (V, i) /\ Z.of_nat (length V) = 7001%Z /\ length i = length V /\
  forall k, (k < length V)%nat -> nth k V 0 = INR k / 200 /\
    (nth k V 0 <= nth f v 0 -> nth k i 0 = nth f c 0) /\
    (forall j, (f <= j < l)%nat -> nth j v 0 <= nth k V 0 <= nth (S j) v 0 ->
       nth k i 0 = chord (nth j v 0) (nth j c 0) (nth (S j) v 0) (nth (S j) c 0) (nth k V 0)) /\
    (nth l v 0 <= nth k V 0 -> nth k i 0 - nth l c 0 = nth k V 0 - nth l v 0).
Proof.
  intros A B C D E. destruct (resampled v c vmax f l A B C D E) as [i [H1 [H2 H3]]]. exists VINIT, i. split; [assumption|]. split; [rewrite vinit_length; apply npts_Z|]. split; [assumption|].
  intros k K. split; [apply vinit_nth; now rewrite <- vinit_length|]. now apply H3.
Qed.
Lemma import_zero : exists i, import_iv [0; 1 / 2; 1] [0; 1 / 4; 1] (9 / 5) = Ok (VINIT, i) /\ nth 0 VINIT 0 = 0 /\ nth 0 i 0 = 1 / 4.
Proof.
  destruct import_not_zero as [i [E Z]]. exists i. split; [assumption|]. split; [|assumption]. pose proof npts_Z. rewrite vinit_nth by lia. change (INR 0) with 0. lra.
Qed.
Lemma class_keys cls kwargs : NoDup (map fst (class_params cls kwargs)).
Proof. destruct cls; apply default_keys. Qed.
Lemma class_points cls : cls <> FromIVData -> cls <> Exponential -> forall key, lookup (class_params cls []) key = documented key.
Proof. intros N1 N2 key. rewrite class_table by constructor. destruct cls; try contradiction; reflexivity. Qed.
Lemma ideal_current_odd x : ideal_current (- x) = - ideal_current x.
Proof. unfold ideal_current. rewrite ideal_odd_elt. destruct (perfect_fin x) as [y [-> _]]. reflexivity. Qed.
Lemma reflect_map g a k : (forall x, g (- x) = - g x) -> (1 <= length a)%nat -> (k < length (reflect a))%nat -> nth k (reflect (map g a)) 0 = g (nth k (reflect a) 0).
Proof.
  intros O L K. rewrite reflect_length in K by assumption. destruct (le_lt_dec (length a - 1) k) as [H|H].
  - rewrite !reflect_high by (rewrite ?map_length; assumption). rewrite map_length. rewrite (nth_indep _ 0 (g 0)) by (rewrite map_length; lia). apply map_nth.
  - rewrite !reflect_left by (rewrite ?map_length; lia). rewrite O, map_length. f_equal. rewrite (nth_indep _ 0 (g 0)) by (rewrite map_length; lia). apply map_nth.
Qed.
Lemma perfect_ideal spline dspline p : v_smear p = None ->
  exists r, respfn_perfect spline dspline p = Ok r /\
  (forall x, (Rabs x < 1 -> idc r x = 0) /\ (1 < Rabs x -> idc r x = x) /\ (x = 1 -> idc r x = 1 / 2) /\ (x = -1 -> idc r x = - (1 / 2))) /\
  (forall x, (Rabs x <> 1 -> ikk r x = - (2 + x * ln (Rabs ((x - 1) / (x + 1)))) / PI) /\ (Rabs x = 1 -> ikk r x = 100)) /\
  length (rf_current r) = length (rf_voltage r) /\ length (rf_current_kk r) = length (rf_voltage r) /\
  Z.of_nat (length (rf_voltage r)) = 14001%Z /\ (forall k, (k < length (rf_voltage r))%nat -> nth k (rf_voltage r) 0 = INR k / 200 - 35) /\
  forall k, (k < length (rf_voltage r))%nat -> nth k (rf_current r) 0 = idc r (nth k (rf_voltage r) 0) /\ nth k (rf_current_kk r) 0 = ikk r (nth k (rf_voltage r) 0).
Proof.
  intros N. unfold respfn_perfect. rewrite N. assert (V1 : (1 <= length VINIT)%nat) by (pose proof vinit_length; pose proof npts_Z; lia).
  eexists. split; [reflexivity|]. unfold idc, ikk. cbn [f_idc f_ikk rf_current rf_voltage rf_current_kk]. split; [|split; [|split; [|split; [|split; [|split]]]]].
  - intros x. unfold ideal_current, perfect_elt. cbn [feq flt fabs]. repeat split; intros H.
    + now rewrite (Rltb_t _ _ H).
    + rewrite (Rltb_f (Rabs x) 1) by lra. destruct (Reqb_spec x (-1)) as [->|]; [rewrite Rabs_left in H; lra|]. destruct (Reqb_spec x 1) as [->|]; [rewrite Rabs_right in H; lra|]. reflexivity.
    + subst x. rewrite (Rltb_f (Rabs 1) 1) by (rewrite Rabs_right; lra). destruct (Reqb_spec 1 (-1)); [lra|]. destruct (Reqb_spec 1 1); [reflexivity|lra].
    + subst x. rewrite (Rltb_f (Rabs (-1)) 1) by (rewrite Rabs_left; lra). destruct (Reqb_spec (-1) (-1)); [reflexivity|lra].
  - intros x. split; intros H; unfold perfect_kk_elt; [rewrite Reqb_f by assumption; cbn [negb]; field; apply PI_neq0|]. now apply kk_gap.
  - rewrite !reflect_length; rewrite ?map_length; [reflexivity|assumption..].
  - apply map_length.
  - destruct vinit_reflected as [-> _]. pose proof npts_Z. lia.
  - apply vinit_reflected.
  - intros k K. split; [apply reflect_map; try assumption; apply ideal_current_odd|]. rewrite (nth_indep _ 0 (perfect_kk_elt 100 0)) by (rewrite map_length; assumption). apply map_nth.
Qed.
