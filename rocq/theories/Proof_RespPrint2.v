(** More about the report: the classes, the check, the errors it does not show, the text. *)
From Coq Require Import List ZArith Lia Lra Bool Arith Reals String.
From Coquelicot Require Import Complex.
From Verif Require Import Base Model_QtCurrent Float NumPy Proof_NumPy Model_MathFn Spec_MathFn Proof_Circuit Proof_IVModels
  Proof_Slope Proof_Filters Proof_KK Spec_RespFn Model_CleanData Proof_CleanData Model_IVModels Model_RespFn Proof_Nodes Proof_RespFn Proof_RespFn2 Proof_RespFn3 Proof_RespFn4
  Model_IVData Model_Misc Model_Print Model_Said Proof_Said Model_RespPrint Spec_Misc Spec_Print Spec_HBText Spec_RespPrint Proof_Misc Proof_Print Proof_HBText Proof_RespPrint.
Import ListNotations.
Local Notation length := List.length.
Open Scope list_scope.
Open Scope R_scope.

Lemma fst_after {M A B} (m m' : said M A) (k k' : A -> said M B) : m = m' -> (forall a, fst (k a) = fst (k' a)) -> fst (after m k) = fst (after m' k').
Proof. intros <- K. destruct m as [out [a|e]]; cbn; [|reflexivity]. specialize (K a). destruct (k a), (k' a). cbn in *. now rewrite K. Qed.

Lemma mapM_size {A B} (f : A -> res B) l : forall ys, mapM f l = Ok ys -> length ys = length l.
Proof.
  induction l as [|a l IH]; intros ys H; [cbn in H; assert (ys = []) by congruence; now subst|]. destruct (mapM_cons _ _ _ _ H) as [y [zs [-> [_ K]]]]. cbn. now rewrite (IH zs K).
Qed.
Section Spline.
Variable spline dspline : list R -> list R -> Z -> R -> R.
(** ** The check comes after the report *)
Definition same_but_check (p q : params) : Prop :=
  max_npts_dc p = max_npts_dc q /\ max_npts_kk p = max_npts_kk q /\ v_smear p = v_smear q /\ kk_n p = kk_n q /\ spline_order p = spline_order q.
Lemma setup_unchecked verbose v c ckk p q : same_but_check p q ->
  fst (setup_interpolation_p spline dspline verbose v c ckk p) = fst (setup_interpolation_p spline dspline verbose v c ckk q).
Proof.
  intros [E1 [E2 [_ [_ E5]]]]. unfold setup_interpolation_p. rewrite E1, E2, E5.
  do 5 (apply fst_after; [reflexivity|]; intros ?). apply fst_after; [reflexivity|]. intros [f1 d1].
  do 2 (apply fst_after; [reflexivity|]; intros ?). apply fst_after; [reflexivity|]. intros [f2 d2]. apply fst_after; [reflexivity|]. intros [v1 e1]. apply fst_after; [reflexivity|]. intros [v2 e2].
  apply fst_after; [reflexivity|]. intros []. rewrite !after_quiet.
  repeat match goal with |- context [fst (match ?x with Ok _ => _ | Err _ => _ end)] => destruct x as [[]|]; cbn [fst quietly] end; reflexivity.
Qed.
Lemma init_unchecked verbose v c p q : same_but_check p q -> fst (respfn_init_p spline dspline verbose v c p) = fst (respfn_init_p spline dspline verbose v c q).
Proof.
  intros S. pose proof S as [E1 [E2 [E3 [E4 E5]]]]. unfold respfn_init_p. rewrite E3, E4. do 5 (apply fst_after; [reflexivity|]; intros ?). cbv zeta. do 2 (apply fst_after; [reflexivity|]; intros ?).
  match goal with |- fst (after ?m1 ?k) = fst (after ?m2 ?k2) => assert (K : forall mm : said rmsg ((R -> R) * (R -> R) * (R -> R) * (R -> R)), fst (after mm k) = fst mm) end.
  { intros [out [[[[? ?] ?] ?]|]]; cbn; [now rewrite app_nil_r|reflexivity]. }
  rewrite !K. now apply setup_unchecked.
Qed.

(** ** The classes *)
Lemma from_iv_same verbose v c vmax p : (1 <= kk_n p)%Z -> snd (respfn_from_iv_p spline dspline verbose v c vmax p) = respfn_from_iv spline dspline v c vmax p.
Proof.
  intros HN. unfold respfn_from_iv_p, respfn_from_iv. rewrite after_quiet. destruct (import_iv v c vmax) as [[x y]|] eqn:E; [|reflexivity]. cbn [bind]. apply init_same; [|assumption].
  unfold import_iv in E. cbv zeta in E. do 5 (apply bind_ok in E; destruct E as [? [?Q E]]). injection E as <- <-. unfold np_interp in Q3. destruct (guard _ _); [|discriminate]. cbn [bind] in Q3. destruct (guard _ _); [|discriminate]. cbn [bind] in Q3. injection Q3 as <-. apply map_length.
Qed.
Lemma polynomial_same verbose n p : (1 <= kk_n p)%Z -> snd (respfn_polynomial_p spline dspline verbose n p) = respfn_polynomial spline dspline n p.
Proof. intros HN. apply init_same; [apply map_length|assumption]. Qed.
Lemma exponential_same verbose a b c d p : (1 <= kk_n p)%Z -> snd (respfn_exponential_p spline dspline verbose a b c d p) = respfn_exponential spline dspline a b c d p.
Proof.
  intros HN. unfold respfn_exponential_p, respfn_exponential. rewrite after_quiet. destruct (mapM _ VINIT) as [y|] eqn:E; [|reflexivity]. cbn [bind]. apply init_same; [|assumption]. now apply mapM_size in E.
Qed.
Lemma smeared_length s y : perfect_smeared s = Ok y -> length y = length VINIT.
Proof.
  unfold perfect_smeared. intros H. cbv zeta in H. apply bind_ok in H. destruct H as [? [_ H]]. apply bind_ok in H. destruct H as [? [P H]]. do 2 (apply bind_ok in H; destruct H as [? [_ H]]). apply bind_ok in H. destruct H as [g [G H]].
  apply conv_length in G. assert (L : length g = length VINIT).
  { rewrite G. unfold pyset in P. destruct (pyidx _ _); [|discriminate]. injection P as <-. rewrite list_set_length. apply repeat_length. }
  rewrite bcast_eq in H by now rewrite map_length. injection H as <-. rewrite zipwith_length; rewrite ?map_length; assumption.
Qed.
Lemma perfect_same verbose p : (1 <= kk_n p)%Z -> snd (respfn_perfect_p spline dspline verbose p) = respfn_perfect spline dspline p.
Proof.
  intros HN. unfold respfn_perfect_p. rewrite after_say. cbn [snd]. destruct (v_smear p) as [s|] eqn:E; [|reflexivity]. unfold respfn_perfect. rewrite E. rewrite after_quiet. destruct (perfect_smeared s) as [y|] eqn:P; [|reflexivity]. cbn [bind].
  rewrite after_say. cbn [snd]. apply init_same; [now apply (smeared_length s)|assumption].
Qed.
Lemma classes_quiet p : (forall v c vmax, fst (respfn_from_iv_p spline dspline false v c vmax p) = []) /\ (forall n, fst (respfn_polynomial_p spline dspline false n p) = []) /\
  (forall a b c d, fst (respfn_exponential_p spline dspline false a b c d p) = []) /\ fst (respfn_perfect_p spline dspline false p) = [].
Proof.
  split; [|split; [|split]].
  - intros v c m. apply fst_quiet; [reflexivity|]. intros [x y]. apply init_quiet.
  - intros n. apply init_quiet.
  - intros a b c d. apply fst_quiet; [reflexivity|]. intros y. apply init_quiet.
  - unfold respfn_perfect_p. apply fst_quiet; [reflexivity|]. intros _. destruct (v_smear p); [|reflexivity]. apply fst_quiet; [reflexivity|]. intros y. apply fst_quiet; [reflexivity|]. intros _. apply init_quiet.
Qed.
(** The lines of RespFnPerfect. *)
Lemma perfect_plain p : v_smear p = None -> exists r, respfn_perfect_p spline dspline true p = ([Generating], Ok r).
Proof. intros E. unfold respfn_perfect_p. rewrite E. unfold respfn_perfect. rewrite E. cbn. eauto. Qed.
Lemma perfect_twice p s out r : v_smear p = Some s -> respfn_perfect_p spline dspline true p = (out, Ok r) -> exists rest, out = [Generating; Smear s; Generating; Smear s] ++ rest.
Proof.
  intros E H. unfold respfn_perfect_p in H. rewrite E, after_say in H. set (m := after _ _) in H. destruct m as [o rr] eqn:M. unfold m in M. clear m. cbn [fst snd] in H.
  rewrite after_quiet in M. destruct (perfect_smeared s) as [y|] eqn:P; [|congruence]. rewrite after_say in M. set (m := respfn_init_p _ _ _ _ _ _) in M. destruct m as [o2 r2] eqn:I. unfold m in I. clear m. cbn [fst snd] in M.
  assert (r2 = Ok r) by congruence. assert (OUT : out = [Generating; Smear s] ++ o2). { assert (out = [Generating] ++ o) by congruence. assert (o = [Smear s] ++ o2) by congruence. subst. reflexivity. } subst r2 out. clear H M.
  unfold respfn_init_p in I. rewrite after_say in I. set (m := after _ _) in I. destruct m as [o3 r3] eqn:M. unfold m in M. clear m. cbn [fst snd] in I. assert (r3 = Ok r) by congruence. assert (OUT : o2 = [Generating] ++ o3) by congruence. subst r3 o2. clear I.
  do 4 (apply after_ok in M; destruct M as [? [? [? [Q [M ->]]]]]; apply quietly_ok in Q; destruct Q as [-> _]). cbv zeta in M.
  apply after_ok in M. destruct M as [o1 [c' [o2 [S1 [_ ->]]]]]. rewrite E in S1. apply after_ok in S1. destruct S1 as [? [? [? [Q [S1 ->]]]]]. apply quietly_ok in Q. destruct Q as [-> _]. rewrite after_say in S1. cbn [fst snd quietly] in S1.
  assert (EX : x5 = [Smear s]) by (rewrite app_nil_r in S1; congruence). rewrite EX. exists o2. reflexivity.
Qed.
End Spline.

(** ** The largest error that is shown *)
Lemma shown_below v p r : (1 <= kk_n p)%Z -> check_error p = true -> v_smear p = None -> respfn_init spiky spiky v v p = Ok r ->
  exists out e w, respfn_init_p spiky spiky true v v p = (out, Ok r) /\ nth_error out 5 = Some (MaxError e w) /\ e < max_interp_error p.
Proof.
  intros HN CE NS H. pose proof (init_same spiky spiky true v v p eq_refl HN) as S. rewrite H in S.
  destruct (respfn_init_p spiky spiky true v v p) as [out rr] eqn:P. cbn [snd] in S. subst rr. exists out.
  destruct (init_report spiky spiky v v p out r eq_refl HN P) as [xd [yd [xk [yk [a1 [t1 [w1 [a2 [t2 [w2 [A1 [A2 [A3 [A4 [A5 [A6 ->]]]]]]]]]]]]]]]].
  exists t1, w1. split; [reflexivity|]. rewrite NS. split; [reflexivity|].
  destruct A5 as [_ [_ [[y [I ->]] _]]]. unfold samples in I. apply filter_In in I. destruct I as [I G]. cbn [fst] in G.
  destruct (In_nth _ _ (0, 0) I) as [j [Hj E]]. pose proof (init_inv spiky spiky v v p r H) as [L [Z [F [EV [ES _]]]]].
  assert (LV : length (rf_current r) = length (rf_voltage r)) by (rewrite EV, (ES NS); reflexivity). rewrite combine_nth in E by now symmetry. rewrite combine_length, LV, Nat.min_id in Hj.
  rewrite EV, reflect_length in Hj by assumption. pose proof (object_checked spiky spiky v v p r eq_refl HN NS CE H j Hj) as C.
  assert (E1 : nth j (rf_voltage r) 0 = w1) by congruence. assert (E2 : nth j (rf_current r) 0 = y) by congruence. rewrite E1, E2 in C. destruct (Rlt_dec (-34) w1); [|discriminate]. destruct (Rlt_dec w1 34); [|discriminate]. specialize (C (conj r0 r1)). exact (proj1 C).
Qed.
Lemma shown_blind : exists out r e w k, respfn_init_p spiky spiky true VINIT VINIT checked = (out, Ok r) /\ nth_error out 5 = Some (MaxError e w) /\ e < 1 / 1000 /\
  (k < length (rf_voltage r))%nat /\ -34 < nth k (rf_voltage r) 0 < 34 /\ Rabs (nth k (rf_current r) 0 - idc r (nth k (rf_voltage r) 0)) > 1000.
Proof.
  destruct check_blind as [r [k [H [Hk [B D]]]]]. assert (HN : (1 <= kk_n checked)%Z) by (change (1 <= 50)%Z; clear; lia).
  destruct (shown_below VINIT checked r HN eq_refl eq_refl H) as [out [e [w [P [N L]]]]]. exists out, r, e, w, k.
  split; [exact P|]. split; [exact N|]. split; [exact L|]. split; [exact Hk|]. split; [exact B|]. clear - D. rewrite Rabs_left by lra. lra.
Qed.

(** ** The text *)
Lemma rtext_says m : rsays m (rtext m).
Proof.
  destruct m; cbn [rsays rtext]; try reflexivity.
  - eexists. split; [reflexivity|apply fixed_near].
  - eexists. split; [reflexivity|apply digits_natural].
  - eexists. split; [reflexivity|apply sci_ok].
  - eexists _, _. split; [reflexivity|]. split; apply fixed_near.
  - eexists. split; [reflexivity|apply digits_natural].
Qed.
