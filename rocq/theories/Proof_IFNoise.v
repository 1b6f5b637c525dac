(** Proofs about the noise temperature analysis of qmix/exp/if_data.py. *)
From Coq Require Import List ZArith Bool Lia Reals Lra String.
From Coquelicot Require Import Coquelicot.
From Verif Require Import Base Model_QtCurrent Proof_Circuit Proof_IVModels Float NumPy Proof_NumPy Spec_CleanData Proof_CleanData Model_CleanData Model_MathFn Proof_Filters Model_RespFn Spec_IVData Model_IVData Proof_IVLoad Proof_IVData Proof_IVCurve Spec_IFData Model_IFData.
Import ListNotations.
Open Scope R_scope.
Local Notation length := List.length.
Local Notation Forall := List.Forall.

(** ** Callen-Welton temperature *)
Lemma planck_pos : 0 < planck. Proof. unfold planck. apply Rdiv_lt_0_compat; [lra|apply pow_lt; lra]. Qed.
Lemma boltzmann_pos : 0 < boltzmann. Proof. unfold boltzmann. apply Rdiv_lt_0_compat; [lra|apply pow_lt; lra]. Qed.
Lemma quantum_pos f : 0 < f -> 0 < planck * f / boltzmann.
Proof. intros. apply Rdiv_lt_0_compat; [apply Rmult_lt_0_compat; [apply planck_pos|assumption]|apply boltzmann_pos]. Qed.
Lemma exp_gt_1 x : 0 < x -> 1 < exp x.
Proof. intros. rewrite <- exp_0. now apply exp_increasing. Qed.

Lemma cw_eq f T : 0 < f -> 0 < T -> temp_cw f T = Ok (FV (callen_welton f T)).
Proof.
  intros F P. unfold temp_cw. rewrite (Reqb_f T 0) by lra. cbn [negb guard bind]. f_equal.
  pose proof (quantum_pos f F) as Q. unfold callen_welton. set (a := planck * f / boltzmann) in *.
  replace (sc_h * f / 2 / sc_k) with (a / 2) by (unfold a, sc_h, sc_k, planck, boltzmann; field; apply pow_nonzero; lra).
  set (u := a / 2 / T). assert (U : 0 < u) by (unfold u; apply Rdiv_lt_0_compat; lra).
  replace (a / T) with (u + u) by (unfold u; field; lra). rewrite exp_plus.
  pose proof (exp_gt_1 u U) as E. assert (E2 : 1 < exp u * exp u) by nra.
  assert (TU : tanh u = (exp u * exp u - 1) / (exp u * exp u + 1)).
  { unfold tanh, sinh, cosh. rewrite exp_Ropp. field. repeat split; nra. }
  cbn [fdiv]. rewrite Reqb_f.
  - f_equal. rewrite TU. field. split; nra.
  - rewrite TU. apply Rgt_not_eq. apply Rdiv_lt_0_compat; nra.
Qed.
Lemma exp_above x : x <> 0 -> 1 + x < exp x.
Proof. apply exp_ineq1. Qed.
(** x (e^x + 1) > 2 (e^x - 1) *)
Lemma coth_above w : 0 < w -> 2 * (exp w - 1) < w * (exp w + 1).
Proof.
  intros W. pose (g := fun w => w * (exp w + 1) - 2 * (exp w - 1)).
  assert (D : forall a b, 0 <= a -> a < b -> exists c, a <= c <= b /\ g b - g a = (1 + (c - 1) * exp c) * (b - a)).
  { intros a b A B. destruct (MVT_gen g a b (fun w => 1 + (w - 1) * exp w)) as [c [C E]].
    - intros x Hx. unfold g. auto_derive; [trivial|ring].
    - intros x Hx. apply continuity_pt_filterlim. apply (ex_derive_continuous (fun w => w * (exp w + 1) - 2 * (exp w - 1))). auto_derive. trivial.
    - rewrite Rmin_left, Rmax_right in C by lra. exists c. split; assumption. }
  assert (KP : forall c, 0 < c -> 0 < 1 + (c - 1) * exp c).
  { intros d P. assert (1 - d < exp (- d)) by (pose proof (exp_above (- d) ltac:(lra)); lra). pose proof (exp_pos d).
    assert (X : (1 - d) * exp d < exp (- d) * exp d) by (apply Rmult_lt_compat_r; lra). rewrite <- exp_plus, Rplus_opp_l, exp_0 in X. lra. }
  assert (K : forall c, 0 <= c -> 0 <= 1 + (c - 1) * exp c) by (intros d [P|P]; [left; now apply KP|subst d; rewrite exp_0; lra]).
  destruct (D 0 (w / 2) ltac:(lra) ltac:(lra)) as [c [C E]]. destruct (D (w / 2) w ltac:(lra) ltac:(lra)) as [d [C' E']].
  specialize (K c ltac:(lra)). specialize (KP d ltac:(lra)). unfold g in *. rewrite exp_0 in E. nra.
Qed.
Lemma cw_above_T f T : 0 < f -> 0 < T -> T < callen_welton f T.
Proof.
  intros F P. unfold callen_welton. pose proof (quantum_pos f F) as Q. set (a := planck * f / boltzmann) in *.
  assert (W : 0 < a / T) by (apply Rdiv_lt_0_compat; lra). pose proof (coth_above _ W) as H. pose proof (exp_gt_1 _ W) as E.
  set (e := exp (a / T)) in *. replace (a * (1 / (e - 1) + 1 / 2)) with (T * ((a / T) * (e + 1) / (2 * (e - 1)))) by (field; lra).
  rewrite <- (Rmult_1_r T) at 1. apply Rmult_lt_compat_l; [assumption|]. apply (Rmult_lt_reg_r (2 * (e - 1))); [lra|]. replace (a / T * (e + 1) / (2 * (e - 1)) * (2 * (e - 1))) with (a / T * (e + 1)) by (field; lra). lra.
Qed.
Lemma cw_above_half f T : 0 < f -> 0 < T -> planck * f / (2 * boltzmann) < callen_welton f T.
Proof.
  intros F P. unfold callen_welton. pose proof (quantum_pos f F) as Q. pose proof boltzmann_pos. replace (planck * f / (2 * boltzmann)) with (planck * f / boltzmann * (1 / 2)) by (field; lra).
  set (a := planck * f / boltzmann) in *. apply Rmult_lt_compat_l; [assumption|]. assert (W : 0 < a / T) by (apply Rdiv_lt_0_compat; lra). pose proof (exp_gt_1 _ W).
  assert (0 < 1 / (exp (a / T) - 1)) by (apply Rdiv_lt_0_compat; lra). lra.
Qed.
Lemma cw_below f T : 0 < f -> 0 < T -> callen_welton f T < T + planck * f / (2 * boltzmann).
Proof.
  intros F P. unfold callen_welton. pose proof (quantum_pos f F) as Q. pose proof boltzmann_pos. replace (planck * f / (2 * boltzmann)) with (planck * f / boltzmann * (1 / 2)) by (field; lra).
  set (a := planck * f / boltzmann) in *. rewrite Rmult_plus_distr_l. apply Rplus_lt_compat_r. assert (W : 0 < a / T) by (apply Rdiv_lt_0_compat; lra). pose proof (exp_above (a / T) ltac:(lra)) as E.
  set (e := exp (a / T)) in *. apply (Rmult_lt_reg_r (e - 1)); [lra|]. replace (a * (1 / (e - 1)) * (e - 1)) with (T * (a / T)) by (field; lra). apply Rmult_lt_compat_l; lra.
Qed.
Lemma cw_rises f T T' : 0 < f -> 0 < T < T' -> callen_welton f T < callen_welton f T'.
Proof.
  intros F P. unfold callen_welton. pose proof (quantum_pos f F) as Q. set (a := planck * f / boltzmann) in *. apply Rmult_lt_compat_l; [assumption|]. apply Rplus_lt_compat_r.
  assert (W : 0 < a / T') by (apply Rdiv_lt_0_compat; lra). assert (L : a / T' < a / T) by (unfold Rdiv; apply Rmult_lt_compat_l; [assumption|]; apply Rinv_lt_contravar; nra).
  apply exp_increasing in L. pose proof (exp_gt_1 _ W). unfold Rdiv. rewrite !Rmult_1_l. apply Rinv_lt_contravar; [|lra]. apply Rmult_lt_0_compat; lra.
Qed.
Lemma sinh_above w : 0 < w -> 2 * w < exp w - exp (- w).
Proof.
  intros W. pose (g := fun w => exp w - exp (- w) - 2 * w).
  assert (D : forall a b, 0 <= a -> a < b -> exists c, a <= c <= b /\ g b - g a = (exp c + exp (- c) - 2) * (b - a)).
  { intros a b A B. destruct (MVT_gen g a b (fun w => exp w + exp (- w) - 2)) as [c [C E]].
    - intros x Hx. unfold g. auto_derive; [trivial|ring].
    - intros x Hx. apply continuity_pt_filterlim. apply (ex_derive_continuous (fun w => exp w - exp (- w) - 2 * w)). auto_derive. trivial.
    - rewrite Rmin_left, Rmax_right in C by lra. exists c. split; assumption. }
  assert (K : forall c, 0 <= exp c + exp (- c) - 2).
  { intros c. rewrite exp_Ropp. pose proof (exp_pos c). replace (exp c + / exp c - 2) with ((exp c - 1) ^ 2 / exp c) by (field; lra). apply Rdiv_le_0_compat; [apply pow2_ge_0|assumption]. }
  assert (KP : forall c, 0 < c -> 0 < exp c + exp (- c) - 2).
  { intros c C. rewrite exp_Ropp. pose proof (exp_pos c). pose proof (exp_gt_1 c C). replace (exp c + / exp c - 2) with ((exp c - 1) ^ 2 / exp c) by (field; lra). apply Rdiv_lt_0_compat; [nra|assumption]. }
  destruct (D 0 (w / 2) ltac:(lra) ltac:(lra)) as [c [C E]]. destruct (D (w / 2) w ltac:(lra) ltac:(lra)) as [d [C' E']].
  specialize (K c). specialize (KP d ltac:(lra)). unfold g in *. rewrite Ropp_0, exp_0 in E. nra.
Qed.
(** The Callen-Welton temperature increases with the frequency. *)
Lemma cw_rises_f f f' T : 0 < T -> 0 < f < f' -> callen_welton f T < callen_welton f' T.
Proof.
  intros P F. pose (g := fun w => w * (1 / (exp w - 1) + 1 / 2)).
  assert (E : forall f, 0 < f -> callen_welton f T = T * g (planck * f / boltzmann / T)).
  { intros x X. unfold callen_welton, g. pose proof (quantum_pos x X) as Q. set (a := planck * x / boltzmann) in *. assert (W : 0 < a / T) by (apply Rdiv_lt_0_compat; lra). pose proof (exp_gt_1 _ W). set (e := exp (a / T)) in *. field. lra. }
  rewrite !E by lra. apply Rmult_lt_compat_l; [assumption|].
  pose proof planck_pos. pose proof boltzmann_pos. set (a := planck * f / boltzmann / T). set (b := planck * f' / boltzmann / T).
  assert (A : 0 < a) by (unfold a; apply Rdiv_lt_0_compat; [apply quantum_pos|]; lra).
  assert (AB : a < b). { unfold a, b, Rdiv. apply Rmult_lt_compat_r; [now apply Rinv_0_lt_compat|]. apply Rmult_lt_compat_r; [now apply Rinv_0_lt_compat|]. apply Rmult_lt_compat_l; lra. }
  assert (NZ : forall x, a <= x -> 0 < exp x - 1) by (intros x X; pose proof (exp_gt_1 x ltac:(lra)); lra).
  destruct (MVT_gen g a b (fun w => 1 / (exp w - 1) + 1 / 2 - w * exp w / (exp w - 1) ^ 2)) as [c [C EQ]].
  - intros x Hx. rewrite Rmin_left, Rmax_right in Hx by lra. specialize (NZ x ltac:(lra)). unfold g. auto_derive; [lra|]. field. lra.
  - intros x Hx. rewrite Rmin_left, Rmax_right in Hx by lra. specialize (NZ x ltac:(lra)). apply continuity_pt_filterlim. apply (ex_derive_continuous (fun w => w * (1 / (exp w - 1) + 1 / 2))). auto_derive. lra.
  - rewrite Rmin_left, Rmax_right in C by lra. specialize (NZ c ltac:(lra)). pose proof (sinh_above c ltac:(lra)) as S. rewrite exp_Ropp in S. pose proof (exp_pos c) as EP.
    assert (D : 0 < 1 / (exp c - 1) + 1 / 2 - c * exp c / (exp c - 1) ^ 2).
    { set (e := exp c) in *. replace (1 / (e - 1) + 1 / 2 - c * e / (e - 1) ^ 2) with (e * (e - / e - 2 * c) / (2 * (e - 1) ^ 2)) by (field; lra).
      apply Rdiv_lt_0_compat; [apply Rmult_lt_0_compat; lra|]. apply Rmult_lt_0_compat; [lra|]. apply pow_lt. assumption. }
    nra.
Qed.
Lemma cw_zero f : temp_cw f 0 = Err ZeroDivisionError.
Proof. unfold temp_cw. now rewrite Reqb_t. Qed.
Lemma cw_dc T : 0 < T -> temp_cw 0 T = Ok FNaN.
Proof.
  intros. unfold temp_cw. rewrite Reqb_f by lra. cbn [negb guard bind]. f_equal. replace (sc_h * 0 / 2 / sc_k) with 0 by (unfold Rdiv; ring). replace (0 / T) with 0 by (unfold Rdiv; ring). replace (tanh 0) with 0 by (unfold tanh, sinh; rewrite Ropp_0; unfold Rdiv; ring). cbn. now rewrite !Reqb_t.
Qed.

(** ** Noise temperature and gain *)
Definition tn_at (Th Tc h c : R) : fl := fdiv (fsub (FV Th) (fmul (FV Tc) (y_factor h c))) (fsub (y_factor h c) (FV 1)).
Definition gain_at (Th Tc h c : R) : fl := fdiv (FV (h - c)) (FV (Th - Tc)).
Definition best_index (vnorm : list R) (vgap : R) (vbest : option R) (best_pt : string) (tn gain : list fl) : res nat :=
  match vbest with
  | Some vb => fargmin (map (fun a => FV (Rabs (a * vgap - vb))) vnorm)
  | None =>
      if String.eqb (lower best_pt) "max gain" then fargmax gain
      else if String.eqb (lower best_pt) "min tn" then
        let* best := amin (filter (fun a => negb (fisnan a)) tn) in
        nanargmin (map (fun a => fabs (fsub a best)) tn)
      else Err ValueError
  end.
Lemma same_voltages v : forallb (fun b => b) (zipwith Reqb v v) = true.
Proof. induction v as [|a v IH]; [reflexivity|]. cbn. now rewrite Reqb_t, IH. Qed.
Lemma tn_gain_eq v h c vgap q f : q_freq q = Some f -> 0 < f -> 0 < q_t_hot q -> 0 < q_t_cold q -> length h = length v -> length c = length v ->
  let Th := callen_welton (f * 10 ^ 9) (q_t_hot q) in let Tc := callen_welton (f * 10 ^ 9) (q_t_cold q) in
  let tn := zipwith (tn_at Th Tc) h c in let gain := zipwith (gain_at Th Tc) h c in
  find_tn_gain v h v c vgap q = let* idx := best_index v vgap (q_vbest q) (q_best_pt q) tn gain in Ok (tn, gain, idx).
Proof.
  intros EF F PH PC LH LC Th Tc tn gain. unfold find_tn_gain. rewrite EF. cbn [bind]. assert (0 < f * 10 ^ 9) by (apply Rmult_lt_0_compat; [assumption|apply pow_lt; lra]).
  rewrite !cw_eq by assumption. cbn [bind]. fold Th Tc. rewrite Nat.eqb_refl. cbn [guard bind]. rewrite same_voltages. cbn [guard bind].
  rewrite !bcast_eq by congruence. cbn [bind]. unfold best_index.
  replace (map _ (zipwith y_factor h c)) with tn by (unfold tn; rewrite !zip_combine, map_map; reflexivity).
  replace (zipwith _ h c) with gain; [reflexivity|]. unfold gain, gain_at. rewrite !zip_combine. reflexivity.
Qed.
(** The temperatures are needed. *)
Lemma tn_gain_inv v h v' c vgap q r : find_tn_gain v h v' c vgap q = Ok r -> exists f, q_freq q = Some f.
Proof. unfold find_tn_gain. destruct (q_freq q); [eauto|discriminate]. Qed.

Lemma limit_gt : 1 < y_limit.
Proof. unfold y_limit. assert (0 < 1 / 10 ^ 10) by (apply Rdiv_lt_0_compat; [lra|apply pow_lt; lra]). lra. Qed.
Lemma tn_finite Th Tc h c y : y_factor h c = FV y -> y <> 1 -> tn_at Th Tc h c = FV ((Th - Tc * y) / (y - 1)).
Proof. intros E Y. unfold tn_at. rewrite E. cbn [fmul fsub fopp fadd fdiv]. rewrite Reqb_f by lra. f_equal. Qed.
Lemma y_quot h c : c <> 0 -> y_limit <= h / c -> y_factor h c = FV (h / c).
Proof.
  intros C L. unfold y_factor. cbn [fdiv]. rewrite Reqb_f by assumption. cbv zeta. destruct (fle (FV (h / c)) (FV y_limit)) eqn:E; [|reflexivity]. apply fle_v in E. f_equal. lra.
Qed.
Lemma y_low h c : c <> 0 -> h / c < y_limit -> y_factor h c = FV y_limit.
Proof.
  intros C L. unfold y_factor. cbn [fdiv]. rewrite Reqb_f by assumption. cbv zeta. destruct (fle (FV (h / c)) (FV y_limit)) eqn:E; [reflexivity|]. assert (T : fle (FV (h / c)) (FV y_limit) = true) by (apply fle_v; lra). congruence.
Qed.
Lemma y_none h : 0 <= h -> y_factor h 0 = FPInf \/ y_factor h 0 = FNaN.
Proof.
  intros H. unfold y_factor. cbn [fdiv]. rewrite Reqb_t by reflexivity. destruct (Reqb_spec h 0); [right; reflexivity|]. unfold finf. rewrite Rltb_f by lra. left. reflexivity.
Qed.
Lemma y_negative h : h < 0 -> y_factor h 0 = FV y_limit.
Proof. intros H. unfold y_factor. cbn [fdiv]. rewrite Reqb_t by reflexivity. rewrite Reqb_f by lra. unfold finf. now rewrite Rltb_t by lra. Qed.
Lemma y_cases h c : (c = 0 /\ 0 <= h /\ (y_factor h c = FPInf \/ y_factor h c = FNaN)) \/ (~ (c = 0 /\ 0 <= h) /\ exists y, y_factor h c = FV y /\ y_limit <= y).
Proof.
  destruct (Req_dec c 0) as [->|C].
  - destruct (Rle_dec 0 h) as [H|H]; [left; split; [reflexivity|]; split; [assumption|now apply y_none]|]. right. split; [lra|]. exists y_limit. split; [apply y_negative; lra|lra].
  - right. split; [tauto|]. destruct (Rle_dec y_limit (h / c)) as [L|L]; [exists (h / c); split; [now apply y_quot|assumption]|exists y_limit; split; [apply y_low; [assumption|lra]|lra]].
Qed.
Lemma tn_nan Th Tc h : 0 < Tc -> 0 <= h -> tn_at Th Tc h 0 = FNaN.
Proof.
  intros P H. unfold tn_at. destruct (y_none h H) as [E|E]; rewrite E; cbn; [|reflexivity]. rewrite Reqb_f by lra. unfold finf. rewrite Rltb_f by lra. reflexivity.
Qed.
(** One bias voltage. *)
Lemma tn_recovers Th Tc G T : Tc < Th -> G <> 0 -> 0 < Tc + T -> Tc + T <= (Th - Tc) * 10 ^ 10 -> tn_at Th Tc (G * (Th + T)) (G * (Tc + T)) = FV T.
Proof.
  intros L GP P B. assert (D : 0 < 10 ^ 10) by (apply pow_lt; lra).
  assert (E : G * (Th + T) / (G * (Tc + T)) = 1 + (Th - Tc) / (Tc + T)) by (field; lra).
  assert (Y : 1 / 10 ^ 10 <= (Th - Tc) / (Tc + T)). { apply (Rmult_le_reg_r (10 ^ 10 * (Tc + T))); [now apply Rmult_lt_0_compat|]. replace (1 / 10 ^ 10 * (10 ^ 10 * (Tc + T))) with (Tc + T) by (field; lra). replace ((Th - Tc) / (Tc + T) * (10 ^ 10 * (Tc + T))) with ((Th - Tc) * 10 ^ 10) by (field; lra). assumption. }
  assert (S : 0 < (Th - Tc) / (Tc + T)) by (apply Rdiv_lt_0_compat; lra).
  rewrite (tn_finite Th Tc _ _ (1 + (Th - Tc) / (Tc + T))); [f_equal; field; lra| |lra].
  rewrite y_quot; [now rewrite E|apply Rmult_integral_contrapositive_currified; lra|]. rewrite E. unfold y_limit. lra.
Qed.
Lemma gain_recovers Th Tc G T : Tc < Th -> gain_at Th Tc (G * (Th + T)) (G * (Tc + T)) = FV G.
Proof. intros L. unfold gain_at. cbn [fdiv]. rewrite Reqb_f by lra. f_equal. field. lra. Qed.
Lemma tn_bounds Th Tc h c : 0 < Tc < Th -> (tn_at Th Tc h c = FNaN <-> c = 0 /\ 0 <= h) /\
  forall t, tn_at Th Tc h c = FV t -> - Tc < t <= (Th - Tc) * 10 ^ 10 - Tc.
Proof.
  intros [PC L]. pose proof limit_gt as LG. assert (D : 0 < 10 ^ 10) by (apply pow_lt; lra). destruct (y_cases h c) as [[C [H Y]]|[N [y [E Y]]]].
  - subst c. rewrite tn_nan by assumption. split; [tauto|]. intros t T. discriminate.
  - rewrite (tn_finite Th Tc h c y E) by lra. split; [split; [discriminate|tauto]|]. intros t T. injection T as <-. replace ((Th - Tc * y) / (y - 1)) with ((Th - Tc) / (y - 1) - Tc) by (field; lra).
    assert (0 < (Th - Tc) / (y - 1)) by (apply Rdiv_lt_0_compat; lra). split; [lra|]. apply Rplus_le_compat_r. unfold Rdiv. apply Rmult_le_compat_l; [lra|].
    rewrite <- (Rinv_inv (10 ^ 10)). apply Rinv_le_contravar; [now apply Rinv_0_lt_compat|]. unfold y_limit in Y. lra.
Qed.
Lemma tn_number Th Tc h c : 0 < Tc < Th -> tn_at Th Tc h c = FNaN \/ exists t, tn_at Th Tc h c = FV t.
Proof.
  intros [PC L]. pose proof limit_gt as LG. destruct (y_cases h c) as [[C [H Y]]|[N [y [E Y]]]]; [left; subst; now apply tn_nan|right]. rewrite (tn_finite Th Tc h c y E) by lra. eauto.
Qed.
Lemma tn_scaled Th Tc h c k : 0 < k -> tn_at Th Tc (k * h) (k * c) = tn_at Th Tc h c.
Proof.
  intros K. unfold tn_at. assert (E : y_factor (k * h) (k * c) = y_factor h c); [|now rewrite E].
  unfold y_factor. replace (fdiv (FV (k * h)) (FV (k * c))) with (fdiv (FV h) (FV c)); [reflexivity|]. cbn [fdiv].
  destruct (Reqb_spec c 0) as [->|C].
  - rewrite Rmult_0_r, ?(Reqb_t 0 0) by reflexivity. destruct (Reqb_spec h 0) as [->|H]; [rewrite Rmult_0_r, ?(Reqb_t 0 0) by reflexivity; reflexivity|]. rewrite Reqb_f by (apply Rmult_integral_contrapositive_currified; lra).
    unfold finf. destruct (Rltb_spec h 0); [rewrite Rltb_t by nra|rewrite Rltb_f by nra]; reflexivity.
  - rewrite Reqb_f by (apply Rmult_integral_contrapositive_currified; lra). f_equal. field. lra.
Qed.
Lemma gain_scaled Th Tc h c k : 0 < k -> gain_at Th Tc (k * h) (k * c) = fmul (FV k) (gain_at Th Tc h c).
Proof.
  intros K. unfold gain_at. cbn [fdiv]. replace (k * h - k * c) with (k * (h - c)) by ring. destruct (Reqb_spec (Th - Tc) 0) as [E|E].
  - destruct (Reqb_spec (h - c) 0) as [->|H]; [rewrite Rmult_0_r, ?(Reqb_t 0 0) by reflexivity; reflexivity|]. rewrite Reqb_f by (apply Rmult_integral_contrapositive_currified; lra).
    unfold finf. destruct (Rltb_spec (h - c) 0); [rewrite Rltb_t by nra|rewrite Rltb_f by nra]; cbn; rewrite Reqb_f by lra; unfold finf; [rewrite Rltb_t by lra|rewrite Rltb_f by lra]; reflexivity.
  - cbn [fmul]. f_equal. field. lra.
Qed.

(** ** Best bias voltage *)
Lemma first_min_smallest l k : first_min (map FV l) k -> smallest l k.
Proof. intros [A [B _]]. rewrite map_length in A. split; [assumption|]. intros j J. specialize (B j ltac:(rewrite map_length; assumption)). rewrite !(nth_map_in FV l _ FNaN 0) in B by assumption. now apply fle_v. Qed.
Lemma first_max_largest l k : first_max (map FV l) k -> largest l k.
Proof. intros [A [B _]]. rewrite map_length in A. split; [assumption|]. intros j J. specialize (B j ltac:(rewrite map_length; assumption)). rewrite !(nth_map_in FV l _ FNaN 0) in B by assumption. now apply fle_v. Qed.
Lemma numbers l : Forall number (map FV l).
Proof. apply Forall_forall. intros x H. apply in_map_iff in H. destruct H as [y [<- _]]. reflexivity. Qed.
Lemma argmin_reals l : l <> [] -> exists k, fargmin (map FV l) = Ok k /\ smallest l k.
Proof. intros H. destruct (argmin_first (map FV l)) as [k [E F]]; [now destruct l|apply numbers|]. exists k. split; [assumption|now apply first_min_smallest]. Qed.
Lemma argmax_reals l : l <> [] -> exists k, fargmax (map FV l) = Ok k /\ largest l k.
Proof. intros H. destruct (argmax_first (map FV l)) as [k [E F]]; [now destruct l|apply numbers|]. exists k. split; [assumption|now apply first_max_largest]. Qed.
Lemma amin_reals l : amin (map FV l) = rmap FV (rmin l).
Proof.
  destruct l as [|a l]; [reflexivity|]. cbn [map amin rmin rmap]. f_equal. revert a. induction l as [|b l IH]; intros a; [reflexivity|]. cbn [map fold_left]. rewrite <- IH. f_equal.
  unfold fminimum. cbn [fisnan orb flt]. unfold Rmin. destruct (Rltb_spec b a), (Rle_dec a b); try reflexivity; lra.
Qed.
Definition defined (a : fl) : Prop := a = FNaN \/ exists t, a = FV t.
Lemma defined_filter l : Forall defined l -> exists r, filter (fun a => negb (fisnan a)) l = map FV r /\ forall t, In t r <-> In (FV t) l.
Proof.
  induction 1 as [|a l D F [r [E I]]]; [exists []; split; [reflexivity|cbn; tauto]|]. cbn [filter]. destruct D as [->|[t ->]]; cbn [fisnan negb].
  - exists r. split; [assumption|]. intros t. rewrite I. cbn. split; [auto|intros [K|K]; [discriminate|assumption]].
  - exists (t :: r). split; [cbn; now rewrite E|]. intros u. cbn. rewrite I. split; intros [K|K]; auto; [left; congruence|left; now injection K].
Qed.
Lemma min_tn l : Forall defined l -> (exists t, In (FV t) l) ->
  exists k t, (let* best := amin (filter (fun a => negb (fisnan a)) l) in nanargmin (map (fun a => fabs (fsub a best)) l)) = Ok k /\
    (k < length l)%nat /\ nth k l FNaN = FV t /\ forall u, In (FV u) l -> t <= u.
Proof.
  intros D [t0 T0]. destruct (defined_filter l D) as [r [E I]]. rewrite E, amin_reals. assert (NE : r <> []) by (intros ->; apply I in T0; destruct T0).
  destruct (rmin_some r NE) as [m M]. rewrite M. cbn [rmap bind]. apply rmin_ok in M. destruct M as [M1 M2]. apply I in M1.
  unfold nanargmin. set (d := map (fun a => fabs (fsub a (FV m))) l). set (d' := map (fun a => if fisnan a then FPInf else a) d).
  assert (L' : length d' = length l) by (unfold d', d; now rewrite !map_length).
  destruct (argmin_first d') as [k [K F]].
  - intros K. rewrite K in L'. destruct l; [destruct T0|discriminate].
  - apply Forall_forall. intros x X. unfold d' in X. apply in_map_iff in X. destruct X as [y [<- _]]. unfold number. destruct (fisnan y) eqn:Y; [reflexivity|assumption].
  - rewrite K. cbn [bind]. destruct F as [F1 [F2 _]]. rewrite L' in F1.
    destruct (In_nth _ _ FNaN M1) as [j [J EJ]].
    assert (NTH : forall i, (i < length l)%nat -> nth i d' FNaN = (fun a => if fisnan a then FPInf else a) (fabs (fsub (nth i l FNaN) (FV m)))).
    { intros i Hi. unfold d', d. rewrite (nth_map_in _ _ i FNaN FNaN) by (now rewrite map_length). now rewrite (nth_map_in (fun a => fabs (fsub a (FV m))) l i FNaN FNaN). }
    assert (ZJ : nth j d' FNaN = FV 0). { rewrite NTH, EJ by assumption. cbn. f_equal. replace (m + - m) with 0 by ring. apply Rabs_R0. }
    specialize (F2 j ltac:(lia)). rewrite ZJ, NTH in F2 by assumption.
    assert (DK : defined (nth k l FNaN)) by (rewrite Forall_forall in D; apply D; now apply nth_In).
    destruct DK as [DK|[t DK]]; rewrite DK in F2; cbn in F2; [discriminate|]. apply fle_v in F2. exists k, t.
    assert (TM : t = m). { pose proof (Rabs_pos (t + - m)). assert (Z : Rabs (t + - m) = 0) by lra. destruct (Req_dec (t + - m) 0); [lra|]. now apply Rabs_no_R0 in Z. }
    subst t. split; [|split; [assumption|split; [assumption|intros u U; apply M2; now apply I]]].
    replace (existsb _ d) with true; [reflexivity|]. symmetry. apply existsb_exists. exists (fabs (fsub (FV m) (FV m))). split; [|reflexivity]. unfold d. apply (in_map (fun a => fabs (fsub a (FV m)))). assumption.
Qed.
Lemma no_tn l : Forall (fun a => a = FNaN) l -> (let* best := amin (filter (fun a => negb (fisnan a)) l) in nanargmin (map (fun a => fabs (fsub a best)) l)) = Err ValueError.
Proof. intros F. replace (filter _ l) with (@nil fl); [reflexivity|]. induction F as [|a l -> F IH]; [reflexivity|]. cbn. assumption. Qed.

(** Scaling. *)
Lemma flt_scaled k a b : 0 < k -> flt (fmul (FV k) a) (fmul (FV k) b) = flt a b.
Proof.
  intros K. destruct a, b; cbn; rewrite ?(Reqb_f k 0) by lra; unfold finf; rewrite ?(Rltb_f k 0), ?(Rltb_t (- k) 0) by lra; try reflexivity.
  destruct (Rltb_spec x x0); [apply Rltb_t; nra|apply Rltb_f; nra].
Qed.
Lemma nan_scaled k a : 0 < k -> fisnan (fmul (FV k) a) = fisnan a.
Proof. intros K. destruct a; cbn; rewrite ?(Reqb_f k 0) by lra; unfold finf; rewrite ?(Rltb_f k 0), ?(Rltb_t (- k) 0) by lra; reflexivity. Qed.
Lemma argmax_scaled k l : 0 < k -> fargmax (map (fmul (FV k)) l) = fargmax l.
Proof.
  intros K. destruct l as [|a l]; [reflexivity|]. cbn [map fargmax]. f_equal. generalize 0%nat, 1%nat. revert a. induction l as [|b l IH]; intros a i j; [reflexivity|]. cbn [map fargmax_from].
  rewrite !nan_scaled, flt_scaled by assumption. destruct (_ && _)%bool; apply IH.
Qed.
Lemma zip_scaled {A} (f g : R -> R -> A) k h c : (forall a b, f (k * a) (k * b) = g a b) -> zipwith f (map (Rmult k) h) (map (Rmult k) c) = zipwith g h c.
Proof. intros H. revert c. induction h as [|a h IH]; intros [|b c]; try reflexivity. cbn. now rewrite H, IH. Qed.

Section Analysis.
Variables (v h c : list R) (vgap : R) (q : ifparams) (f : R).
Hypothesis EF : q_freq q = Some f.
Hypothesis PF : 0 < f.
Hypothesis PH : 0 < q_t_hot q.
Hypothesis PC : 0 < q_t_cold q.
Hypothesis LH : length h = length v.
Hypothesis LC : length c = length v.
Let Th := callen_welton (f * 10 ^ 9) (q_t_hot q).
Let Tc := callen_welton (f * 10 ^ 9) (q_t_cold q).
Lemma ghz : 0 < f * 10 ^ 9. Proof. apply Rmult_lt_0_compat; [assumption|apply pow_lt; lra]. Qed.
Lemma tc_pos : 0 < Tc. Proof. pose proof (cw_above_T (f * 10 ^ 9) _ ghz PC). unfold Tc. lra. Qed.
Lemma th_tc : q_t_cold q < q_t_hot q -> Tc < Th. Proof. intros. apply cw_rises; [apply ghz|lra]. Qed.
Lemma th_ne : q_t_cold q <> q_t_hot q -> Tc <> Th.
Proof. intros N. destruct (Rtotal_order (q_t_cold q) (q_t_hot q)) as [L|[L|L]]; [pose proof (th_tc L); lra|contradiction|]. assert (Th < Tc) by (apply cw_rises; [apply ghz|lra]). lra. Qed.

Lemma analysis_scaled k : 0 < k ->
  find_tn_gain v (map (Rmult k) h) v (map (Rmult k) c) vgap q =
  rmap (fun r => let '(tn, gain, idx) := r in (tn, map (fmul (FV k)) gain, idx)) (find_tn_gain v h v c vgap q).
Proof.
  intros K. rewrite !(tn_gain_eq v _ _ vgap q f EF) by (rewrite ?map_length; assumption). fold Th Tc. cbv zeta.
  rewrite (zip_scaled (tn_at Th Tc) (tn_at Th Tc)) by (intros; now apply tn_scaled).
  rewrite (zip_scaled (gain_at Th Tc) (fun a b => fmul (FV k) (gain_at Th Tc a b))) by (intros; now apply gain_scaled).
  replace (zipwith (fun a b => fmul (FV k) (gain_at Th Tc a b)) h c) with (map (fmul (FV k)) (zipwith (gain_at Th Tc) h c)) by (rewrite !zip_combine, map_map; reflexivity).
  assert (E : best_index v vgap (q_vbest q) (q_best_pt q) (zipwith (tn_at Th Tc) h c) (map (fmul (FV k)) (zipwith (gain_at Th Tc) h c)) = best_index v vgap (q_vbest q) (q_best_pt q) (zipwith (tn_at Th Tc) h c) (zipwith (gain_at Th Tc) h c)).
  { unfold best_index. destruct (q_vbest q); [reflexivity|]. destruct (String.eqb _ _); [now apply argmax_scaled|reflexivity]. }
  rewrite E. clear E. destruct (best_index _ _ _ _ _ _); reflexivity.
Qed.

Lemma analysis_lists tn gain idx : find_tn_gain v h v c vgap q = Ok (tn, gain, idx) -> tn = zipwith (tn_at Th Tc) h c /\ gain = zipwith (gain_at Th Tc) h c.
Proof.
  rewrite (tn_gain_eq v h c vgap q f) by assumption. fold Th Tc. cbv zeta. destruct (best_index _ _ _ _ _ _); [|discriminate]. cbn [bind]. intros H. injection H as <- <- <-. auto.
Qed.
Lemma analysis_bounds tn gain idx k : q_t_cold q < q_t_hot q -> find_tn_gain v h v c vgap q = Ok (tn, gain, idx) -> (k < length v)%nat ->
  length tn = length v /\ length gain = length v /\
  (nth k tn FPInf = FNaN <-> nth k c 0 = 0 /\ 0 <= nth k h 0) /\
  (nth k tn FPInf <> FNaN -> exists t, nth k tn FPInf = FV t /\ - Tc < t <= (Th - Tc) * 10 ^ 10 - Tc) /\
  nth k gain FPInf = FV ((nth k h 0 - nth k c 0) / (Th - Tc)).
Proof.
  intros LT E K. apply analysis_lists in E. destruct E as [-> ->]. pose proof tc_pos as P. pose proof (th_tc LT) as Q. rewrite !zipwith_length by congruence. do 2 (split; [congruence|]).
  rewrite !(nth_zipwith _ h c k 0 0 FPInf) by lia. destruct (tn_bounds Th Tc (nth k h 0) (nth k c 0) (conj P Q)) as [B1 B2].
  split; [assumption|]. split.
  - intros N. destruct (tn_number Th Tc (nth k h 0) (nth k c 0) (conj P Q)) as [X|[t X]]; [contradiction|]. exists t. split; [assumption|now apply B2].
  - unfold gain_at. cbn [fdiv]. now rewrite Reqb_f by lra.
Qed.
Lemma best_requested vb : q_vbest q = Some vb -> v <> [] ->
  exists tn gain idx, find_tn_gain v h v c vgap q = Ok (tn, gain, idx) /\ smallest (map (fun a => Rabs (a * vgap - vb)) v) idx.
Proof.
  intros E NE. rewrite (tn_gain_eq v h c vgap q f) by assumption. cbv zeta. unfold best_index. rewrite E. rewrite <- map_map with (g := FV) (f := fun a => Rabs (a * vgap - vb)).
  destruct (argmin_reals (map (fun a => Rabs (a * vgap - vb)) v)) as [k [K S]]; [now destruct v|]. rewrite K. cbn [bind]. do 3 eexists. split; [reflexivity|assumption].
Qed.
Lemma best_gain : q_vbest q = None -> lower (q_best_pt q) = "max gain"%string -> v <> [] -> q_t_cold q <> q_t_hot q ->
  exists tn gain idx, find_tn_gain v h v c vgap q = Ok (tn, map FV gain, idx) /\ largest gain idx.
Proof.
  intros E B NE N. rewrite (tn_gain_eq v h c vgap q f) by assumption. fold Th Tc. cbv zeta. unfold best_index. rewrite E, B. cbn [String.eqb Ascii.eqb Bool.eqb].
  pose proof (th_ne N). replace (zipwith (gain_at Th Tc) h c) with (map FV (zipwith (fun a b => (a - b) / (Th - Tc)) h c)).
  - destruct (argmax_reals (zipwith (fun a b => (a - b) / (Th - Tc)) h c)) as [k [K S]].
    + intros X. apply (f_equal (@List.length R)) in X. rewrite zipwith_length in X by congruence. destruct v; [contradiction|]. rewrite LH in X. discriminate.
    + rewrite K. cbn [bind]. do 3 eexists. split; [reflexivity|assumption].
  - rewrite !zip_combine, map_map. apply map_ext. intros p. unfold gain_at. cbn [fdiv]. now rewrite Reqb_f by lra.
Qed.
Lemma all_defined : q_t_cold q < q_t_hot q -> Forall defined (zipwith (tn_at Th Tc) h c).
Proof. intros LT. rewrite zip_combine. apply Forall_forall. intros x X. apply in_map_iff in X. destruct X as [p [<- _]]. apply tn_number. split; [apply tc_pos|now apply th_tc]. Qed.
Lemma best_tn : q_vbest q = None -> lower (q_best_pt q) = "min tn"%string -> q_t_cold q < q_t_hot q ->
  (exists k, (k < length v)%nat /\ ~ (nth k c 0 = 0 /\ 0 <= nth k h 0)) ->
  exists tn gain idx t, find_tn_gain v h v c vgap q = Ok (tn, gain, idx) /\ (idx < length tn)%nat /\ nth idx tn FNaN = FV t /\ forall u, In (FV u) tn -> t <= u.
Proof.
  intros E B LT [k [K N]]. rewrite (tn_gain_eq v h c vgap q f) by assumption. fold Th Tc. cbv zeta. unfold best_index. rewrite E, B. cbn [String.eqb Ascii.eqb Bool.eqb].
  destruct (min_tn (zipwith (tn_at Th Tc) h c)) as [i [t [X Y]]]; [now apply all_defined| |].
  - destruct (tn_number Th Tc (nth k h 0) (nth k c 0)) as [Z|[t Z]]; [split; [apply tc_pos|now apply th_tc]| |].
    + apply tn_bounds in Z; [contradiction|split; [apply tc_pos|now apply th_tc]].
    + exists t. rewrite <- Z. rewrite <- (nth_zipwith _ h c k 0 0 FNaN) by lia. apply nth_In. rewrite zipwith_length; lia.
  - rewrite X. cbn [bind]. do 4 eexists. split; [reflexivity|exact Y].
Qed.
Lemma best_tn_none : q_vbest q = None -> lower (q_best_pt q) = "min tn"%string -> q_t_cold q < q_t_hot q ->
  (forall k, (k < length v)%nat -> nth k c 0 = 0 /\ 0 <= nth k h 0) -> find_tn_gain v h v c vgap q = Err ValueError.
Proof.
  intros E B LT N. rewrite (tn_gain_eq v h c vgap q f) by assumption. fold Th Tc. cbv zeta. unfold best_index. rewrite E, B. cbn [String.eqb Ascii.eqb Bool.eqb].
  rewrite no_tn; [reflexivity|]. apply Forall_forall. intros x X. destruct (In_nth _ _ FNaN X) as [k [K <-]]. rewrite zipwith_length in K by congruence. rewrite (nth_zipwith _ h c k 0 0 FNaN) by lia. destruct (N k) as [-> Z]; [lia|]. apply tn_nan; [apply tc_pos|assumption].
Qed.
Lemma best_unknown : q_vbest q = None -> lower (q_best_pt q) <> "max gain"%string -> lower (q_best_pt q) <> "min tn"%string -> find_tn_gain v h v c vgap q = Err ValueError.
Proof.
  intros E B1 B2. rewrite (tn_gain_eq v h c vgap q f) by assumption. cbv zeta. unfold best_index. rewrite E. apply String.eqb_neq in B1, B2. now rewrite B1, B2.
Qed.
End Analysis.

Lemma zip_zip {A B C D E} (f : C -> D -> E) (g : A -> B -> C) (k : A -> B -> D) a b : zipwith f (zipwith g a b) (zipwith k a b) = zipwith (fun x y => f (g x y) (k x y)) a b.
Proof. revert b. induction a as [|x a IH]; intros [|y b]; try reflexivity. cbn. now rewrite IH. Qed.
Lemma analysis_recovers v G T vgap q f : q_freq q = Some f -> 0 < f -> 0 < q_t_cold q < q_t_hot q -> length G = length v -> length T = length v ->
  let Th := callen_welton (f * 10 ^ 9) (q_t_hot q) in let Tc := callen_welton (f * 10 ^ 9) (q_t_cold q) in
  (forall k, (k < length v)%nat -> nth k G 0 <> 0 /\ 0 < Tc + nth k T 0 <= (Th - Tc) * 10 ^ 10) ->
  forall tn gain idx, find_tn_gain v (zipwith (fun g t => g * (Th + t)) G T) v (zipwith (fun g t => g * (Tc + t)) G T) vgap q = Ok (tn, gain, idx) ->
  tn = map FV T /\ gain = map FV G.
Proof.
  intros EF PF [PC LT] LG LT' Th Tc H tn gain idx E.
  apply (analysis_lists v _ _ vgap q f) in E; try assumption; try (rewrite zipwith_length; congruence); try lra. fold Th Tc in E. destruct E as [-> ->].
  assert (TT : Tc < Th) by (apply th_tc; assumption).
  split; rewrite zip_zip; (apply (list_ext _ _ FNaN); [rewrite zipwith_length, map_length; lia|]); rewrite zipwith_length by lia; intros k K; destruct (H k ltac:(lia)) as [A B]; rewrite (nth_zipwith _ _ _ k 0 0 FNaN) by lia.
  - rewrite (nth_map_in FV T k FNaN 0) by lia. apply tn_recovers; try assumption; lra.
  - rewrite (nth_map_in FV G k FNaN 0) by lia. apply gain_recovers; lra.
Qed.
