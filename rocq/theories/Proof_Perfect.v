(** What smearing adds to the ideal curve. *)
From Coq Require Import List ZArith Lia Lra Bool Arith Reals String.
From Coquelicot Require Import Complex.
From Verif Require Import Base Model_QtCurrent Float NumPy Proof_NumPy Model_MathFn Spec_MathFn Proof_Circuit Proof_IVModels
  Proof_Slope Proof_Filters Proof_KK Spec_RespFn Spec_Perfect Model_CleanData Proof_CleanData Model_IVModels Model_RespFn Proof_HB2 Proof_Nodes Proof_RespFn Proof_RespFn2 Proof_RespFn3 Proof_RespFn4.
Import ListNotations.
Open Scope R_scope.
Local Notation length := List.length.

Section Pulse.
Variables spline dspline : list R -> list R -> Z -> R -> R.
Variables (v c : list R) (p : params) (s : R).
Hypothesis G : grid_ok v.
Hypothesis LV : Z.of_nat (length v) = 7001%Z.
Hypothesis HN : forall k, (k < length v)%nat -> nth k v 0 = INR k / 200.
Hypothesis HC : length c = length v.
Hypothesis HS : v_smear p = Some s.
Hypothesis SR : 1 / 600 <= s <= 1 / 4.
Hypothesis HK : (1 <= kk_n p)%Z.
Hypothesis HO : (1 <= spline_order p <= 5)%Z.
Hypothesis HE : check_error p = false.
Lemma pulse_is k : Z.of_nat k = 200%Z -> list_set (repeat 0 (length v)) k 1 = pulse 1 v.
Proof.
  intros K. unfold pulse. apply (list_ext _ _ 0); [rewrite list_set_length, repeat_length, map_length; reflexivity|]. intros j Hj. rewrite list_set_length, repeat_length in Hj.
  rewrite nth_list_set by (rewrite repeat_length; lia). set (f := fun x => if Req_EM_T x 1 then 1 else 0). rewrite (nth_indep (map f v) 0 (f 0)) by (rewrite map_length; exact Hj). rewrite (map_nth f), HN by assumption. unfold f.
  rewrite nth_repeat' by assumption. destruct (Nat.eqb_spec j k) as [->|NE]; destruct (Req_EM_T _ 1) as [Q|Q]; try reflexivity.
  - contradict Q. rewrite INR_IZR_INZ, K. lra.
  - contradict NE. rewrite INR_IZR_INZ in Q. assert (Q' : IZR (Z.of_nat j) = 200) by lra. apply eq_IZR in Q'. lia.
Qed.
Lemma pulse_added : exists gs g gg r0 r,
  (let tmp := repeat 0%R (List.length v) in
   let* idx := argmin (map (fun v => Rabs (v - 1)) v) in
   let* tmp := pyset tmp idx 1%R in
   let* v1 := pyget v 1 in
   let* v0 := pyget v 0 in
   let* g := gauss_conv tmp (s / (v1 - v0)) 3 in
   bcast Rplus g c) = Ok gs /\
  respfn_init spline dspline v c p = Ok r0 /\ respfn_init spline dspline v gs p = Ok r /\ gauss_conv (pulse 1 v) (200 * s) 3 = Ok g /\ gauss_conv (reflect g) (200 * s) 3 = Ok gg /\
  rf_voltage r = rf_voltage r0 /\ length (rf_current r) = length (rf_current r0) /\ forall k, (k < length (rf_current r0))%nat -> nth k (rf_current r) 0 = nth k (rf_current r0) 0 + nth k gg 0.
Proof.
  destruct (peak_curves v c s LV HN HC SR) as [k [m [g [K [E [W [MM [X [LG [GP GN]]]]]]]]]]. rewrite (pulse_is k K) in X.
  assert (OK : forall d, length d = length v -> exists r, respfn_init spline dspline v d p = Ok r).
  { intros d Ld. apply init_ok; try assumption. rewrite HS, (step_is v c LV HN HC). lra. }
  destruct (OK c HC) as [r0 R0]. destruct (OK (zipwith Rplus g c)) as [r R1]; [rewrite zipwith_length; lia|].
  assert (SS : s / (1 / 200) = 200 * s) by lra. rewrite SS in X, W.
  set (w := reflect v) in *. assert (LW : length w = (2 * length v - 1)%nat) by (apply reflect_length; lia). assert (LR : forall d, length d = length v -> length (reflect d) = length w) by (intros d Ld; rewrite reflect_length; lia).
  assert (CO : exists gg, gauss_conv (reflect g) (200 * s) 3 = Ok gg). { apply conv_ok. exists m. split; [lra|]. split; [assumption|]. rewrite LR by assumption. lia. }
  destruct CO as [gg CO]. exists (zipwith Rplus g c), g, gg, r0, r.
  split; [|split; [assumption|split; [assumption|split; [assumption|split; [assumption|]]]]].
  - cbv zeta. rewrite E. cbn [bind]. rewrite pyset_nth by (rewrite repeat_length; lia). destruct (Z.ltb_spec (Z.of_nat k) 0); [lia|]. rewrite Nat2Z.id. cbn [bind].
    rewrite !(pyget_nth v _ 0) by lia. change (1 <? 0)%Z with false. change (0 <? 0)%Z with false. cbv iota. change (Z.to_nat 1) with 1%nat. change (Z.to_nat 0) with 0%nat. cbn [bind].
    replace (s / (nth 1 v 0 - nth 0 v 0)) with (200 * s) by (rewrite !HN by lia; change (INR 1) with 1; change (INR 0) with 0; field). rewrite (pulse_is k K), X. cbn [bind]. apply bcast_eq. lia.
  - apply init_inv in R0. destruct R0 as [L [Z [F [EV0 [_ [S0 _]]]]]]. specialize (S0 s HS). apply init_inv in R1. destruct R1 as [_ [_ [_ [EV1 [_ [S1 _]]]]]]. specialize (S1 s HS). fold w in EV0, EV1, S0, S1.
    split; [congruence|]. rewrite reflect_plus in S1 by lia. 
    assert (CM : zipwith Rplus (reflect g) (reflect c) = zipwith Rplus (reflect c) (reflect g)). { apply (list_ext _ _ 0); [rewrite !zipwith_length; rewrite !LR; lia|]. intros i Hi. rewrite zipwith_length in Hi by (rewrite !LR; lia). rewrite !(nth_zipwith _ _ _ _ 0 0 0) by (rewrite ?LR in *; lia). ring. }
    assert (CO' : gauss_conv (reflect g) (s / (nth 1 w 0 - nth 0 w 0)) 3 = Ok gg). { unfold w. rewrite (first_is v c LV HN HC), SS. exact CO. }
    rewrite CM in S1. rewrite (smear_plus w (reflect c) (reflect g) s _ gg (LR c HC) (LR g LG) S0 CO') in S1. injection S1 as <-.
    assert (LU : length (rf_current r0) = length w). { unfold smear_curve in S0. do 3 (apply bind_ok in S0; destruct S0 as [? [_ S0]]). apply bind_ok in S0. destruct S0 as [? [S2 S0]]. rewrite bcast_eq in S2 by now apply LR. injection S2 as <-. apply bind_ok in S0. destruct S0 as [? [S2 S0]]. apply conv_length in S2. rewrite zipwith_length in S2 by now apply LR. rewrite bcast_eq in S0 by (rewrite S2; now apply LR). injection S0 as <-. rewrite zipwith_length; rewrite S2; now apply LR. }
    assert (LGG : length gg = length w) by (rewrite (conv_length _ _ _ _ CO); now apply LR). split; [rewrite zipwith_length; lia|].
    intros j Hj. rewrite (nth_zipwith _ _ _ _ 0 0 0) by lia. reflexivity.
Qed.
End Pulse.
Lemma perfect_pulse spline dspline p s : v_smear p = Some s -> 1 / 600 <= s <= 1 / 4 -> (1 <= kk_n p)%Z -> (1 <= spline_order p <= 5)%Z -> check_error p = false ->
  exists r0 r g gg, respfn_init spline dspline VINIT (map ideal_current VINIT) p = Ok r0 /\ respfn_perfect spline dspline p = Ok r /\
    gauss_conv (pulse 1 VINIT) (200 * s) 3 = Ok g /\ gauss_conv (reflect g) (200 * s) 3 = Ok gg /\
    rf_voltage r = rf_voltage r0 /\ length (rf_current r) = length (rf_current r0) /\ forall k, (k < length (rf_current r0))%nat -> nth k (rf_current r) 0 = nth k (rf_current r0) 0 + nth k gg 0.
Proof.
  intros HS SR HK HO HE. pose proof vinit_grid as G. pose proof vinit_length as L. pose proof npts_Z as LV. pose proof vinit_nth as HN. rewrite <- L in *. unfold respfn_perfect. rewrite HS. unfold perfect_smeared.
  destruct (pulse_added spline dspline VINIT (map ideal_current VINIT) p s G LV HN (map_length _ _) HS SR HK HO HE) as [gs [g [gg [r0 [r [P [R0 [R1 Q]]]]]]]].
  exists r0, r, g, gg. cbv zeta in P. rewrite P. cbn [bind]. split; [assumption|]. split; assumption.
Qed.
