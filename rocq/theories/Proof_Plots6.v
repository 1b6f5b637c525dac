(** Proofs for C144: the figures of response functions. *)
From Coq Require Import List ZArith Bool Lia Reals Lra String.
From Coquelicot Require Import Complex.
From Verif Require Import Base Float NumPy Spec_RespFn Model_IVModels Model_RespFn Spec_RespParams Proof_NumPy Proof_Filters Proof_KK Proof_RespFn Proof_RespFn2 Proof_RespFn3 Proof_RespFn4 Proof_Recover2 Model_IVData Model_IFData Model_Objects Model_Misc Model_Plots Spec_Plots Proof_Plots.
Import ListNotations.
Open Scope R_scope.
Local Notation length := List.length.

Lemma drawn_resp r : length (rf_current r) = length (rf_voltage r) -> length (rf_current_kk r) = length (rf_voltage r) -> draws_resp r /\ draws_interpolation r.
Proof.
  intros A B. split; [unfold draws_resp, plot_resp|unfold draws_interpolation, plot_interpolation]; rewrite !curve_ok by (unfold Model_Plots.numbers; rewrite ?map_length; congruence); cbn [bind]; eexists; (split; [reflexivity|]); unfold shows, points; cbn [g_items g_xlabel g_ylabel g_title g_xlim g_ylim map fst snd app].
  - rewrite !unzip_l, !unzip_r by (rewrite ?map_length; congruence). repeat split.
  - rewrite !unzip_l, !unzip_r by (rewrite ?map_length; congruence). repeat split.
Qed.
Section S.
Variables spline dspline : list R -> list R -> Z -> R -> R.
Lemma init_lengths v c p r : length c = length v -> (1 <= kk_n p)%Z -> respfn_init spline dspline v c p = Ok r -> length (rf_current r) = length (rf_voltage r) /\ length (rf_current_kk r) = length (rf_voltage r).
Proof.
  intros HC HK H. apply init_inv in H. destruct H as [L [Z [F [EV [EC [ES [KK _]]]]]]]. rewrite EV. pose proof (reflect_length v L) as LR. assert (LC : length (reflect c) = length (reflect v)) by (rewrite !reflect_length; lia).
  assert (L1 : length (rf_current r) = length (reflect v)).
  { destruct (v_smear p) as [s|]; [|now rewrite EC]. specialize (ES s eq_refl). unfold smear_curve in ES. do 2 (apply bind_ok in ES; destruct ES as [? [_ ES]]). apply bind_ok in ES. destruct ES as [[] [_ ES]].
    rewrite bcast_eq in ES by assumption. cbn [bind] in ES. apply bind_ok in ES. destruct ES as [g [EG ES]]. apply conv_length in EG. rewrite zipwith_length in EG by assumption. rewrite bcast_eq in ES by congruence. apply ok_inj in ES. rewrite <- ES. rewrite zipwith_length; congruence. }
  assert (L2 : (2 <= length v)%nat). { destruct (Nat.lt_ge_cases (length v) 2) as [G|G]; [|assumption]. exfalso. replace (length v - 1)%nat with 0%nat in F by lia. lra. }
  split; [assumption|]. destruct (kk_rejects (reflect v) (rf_current r) (kk_n p) L1 ltac:(lia) HK) as [[_ G] _]. destruct (kk_length _ _ _ L1 ltac:(lia) HK (G (ex_intro _ _ KK))) as [q [Q1 Q2]]. congruence.
Qed.
Lemma resp_figures v c p r : length c = length v -> (1 <= kk_n p)%Z -> respfn_init spline dspline v c p = Ok r -> draws_resp r /\ draws_interpolation r.
Proof. intros A B H. destruct (init_lengths _ _ _ _ A B H). now apply drawn_resp. Qed.
Lemma perfect_figures p r : (1 <= kk_n p)%Z -> respfn_perfect spline dspline p = Ok r -> draws_resp r /\ draws_interpolation r.
Proof.
  intros HK H. unfold respfn_perfect in H. pose proof vinit_length as LV. pose proof npts_Z. destruct (v_smear p) as [s|] eqn:S.
  - apply bind_ok in H. destruct H as [c [E H]]. refine (resp_figures _ _ _ _ _ HK H). unfold perfect_smeared in E. apply bind_ok in E. destruct E as [i [_ E]]. apply bind_ok in E. destruct E as [t [ET E]].
    do 2 (apply bind_ok in E; destruct E as [? [_ E]]). apply bind_ok in E. destruct E as [g [EG E]]. apply conv_length in EG. assert (LT : length t = length VINIT).
    { unfold pyset in ET. destruct (pyidx _ _); [|discriminate]. apply ok_inj in ET. rewrite <- ET, list_set_length. apply repeat_length. }
    rewrite bcast_eq in E by (rewrite map_length; congruence). apply ok_inj in E. rewrite <- E. rewrite zipwith_length; rewrite ?map_length; congruence.
  - apply ok_inj in H. subst r. apply drawn_resp; cbn [rf_current rf_voltage rf_current_kk]; [|apply map_length]. rewrite !reflect_length; rewrite ?map_length; lia.
Qed.
Lemma from_iv_figures v c vmax p r : (1 <= kk_n p)%Z -> respfn_from_iv spline dspline v c vmax p = Ok r -> draws_resp r /\ draws_interpolation r.
Proof.
  intros HK H. unfold respfn_from_iv in H. apply bind_ok in H. destruct H as [[v' c'] [E H]]. refine (resp_figures _ _ _ _ _ HK H). unfold import_iv in E. do 4 (apply bind_ok in E; destruct E as [? [_ E]]). cbv zeta in E. apply bind_ok in E. destruct E as [i [EI E]]. injection E as <- <-.
  unfold np_interp in EI. do 2 (apply bind_ok in EI; destruct EI as [? [_ EI]]). apply ok_inj in EI. rewrite <- EI. apply map_length.
Qed.
End S.
