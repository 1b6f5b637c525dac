(** The tables of the response functions that are made from I-V curve models. *)
From Coq Require Import List ZArith Bool Lia Reals Lra String.
From Coquelicot Require Import Coquelicot.
From Verif Require Import Base Model_QtCurrent Float NumPy Proof_NumPy Model_MathFn Spec_MathFn Proof_Circuit Proof_IVModels
  Proof_Slope Proof_Filters Proof_KK Spec_RespFn Spec_Classes Model_CleanData Proof_CleanData Model_IVModels Model_RespFn Proof_Nodes Proof_RespFn Proof_RespFn2 Proof_RespFn3 Proof_RespFn4.
Import ListNotations.
Open Scope R_scope.
Local Notation length := List.length.

Section Tables.
Variable spline dspline : list R -> list R -> Z -> R -> R.
Lemma odd_values (h : R -> R) (n : nat) (V c v w : list R) : Z.of_nat n = 7001%Z -> (forall x, h (- x) = - h x) -> (forall k, (k < n)%nat -> nth k V 0 = INR k / 200) -> (forall k, (k < n)%nat -> nth k c 0 = h (nth k V 0)) ->
  (forall k, (k < n)%nat -> nth (n - 1 + k) w 0 = nth k c 0) -> (forall k, (1 <= k < n)%nat -> nth (n - 1 - k) w 0 = - nth k c 0) -> (forall k, (k < 2 * n - 1)%nat -> nth k v 0 = INR k / 200 - 35) ->
  forall k, (k < 2 * n - 1)%nat -> nth k v 0 = INR k / 200 - 35 /\ nth k w 0 = h (nth k v 0).
Proof.
  intros NZ O HV HC R1 R2 NV k K. rewrite (NV k K). split; [reflexivity|]. assert (N7 : INR (n - 1) = 7000). { rewrite INR_IZR_INZ. replace (Z.of_nat (n - 1)) with 7000%Z by lia. reflexivity. }
  destruct (Nat.le_gt_cases (n - 1) k) as [G|G].
  - assert (E := R1 (k - (n - 1))%nat ltac:(lia)). replace (n - 1 + (k - (n - 1)))%nat with k in E by lia. rewrite E, HC, HV by lia. f_equal. rewrite minus_INR, N7 by lia. field.
  - assert (E := R2 (n - 1 - k)%nat ltac:(lia)). replace (n - 1 - (n - 1 - k))%nat with k in E by lia. rewrite E, HC, HV by lia. rewrite <- O. f_equal. rewrite minus_INR, N7 by lia. field.
Qed.
Lemma odd_table h c p r : (forall v, h (- v) = - h v) -> length c = length VINIT -> (forall k, (k < npts)%nat -> nth k c 0 = h (nth k VINIT 0)) -> v_smear p = None -> respfn_init spline dspline VINIT c p = Ok r ->
  length (rf_current r) = length (rf_voltage r) /\ forall k, (k < length (rf_voltage r))%nat -> nth k (rf_voltage r) 0 = INR k / 200 - 35 /\ nth k (rf_current r) 0 = h (nth k (rf_voltage r) 0).
Proof.
  intros O LC HC NS H. destruct (object_current spline dspline VINIT c p r LC H NS) as [L1 [R1 [R2 _]]]. apply init_inv in H. destruct H as [_ [_ [_ [EV _]]]]. destruct vinit_reflected as [LV NV]. rewrite vinit_length in L1, R1, R2. rewrite EV, LV. split; [exact L1|]. rewrite LV in NV.
  exact (odd_values h npts VINIT c (reflect VINIT) (rf_current r) npts_Z O vinit_nth HC R1 R2 NV).
Qed.
Lemma map_values (h : R -> R) (V : list R) (n : nat) : length V = n -> forall k, (k < n)%nat -> nth k (map h V) 0 = h (nth k V 0).
Proof. intros L k K. rewrite (nth_indep _ 0 (h 0)) by (rewrite map_length; lia). apply map_nth. Qed.
Lemma pow_opp_even v n : (- v) ^ (2 * n) = v ^ (2 * n).
Proof. rewrite !pow_mult. f_equal. ring. Qed.
Lemma polynomial_curve_odd n v : polynomial_curve n (- v) = - polynomial_curve n v.
Proof. unfold polynomial_curve. rewrite !pow_add, pow_opp_even, !pow_1. unfold Rdiv. ring. Qed.
Lemma logistic x : 1 / (1 + exp (- x)) = 1 - 1 / (1 + exp x).
Proof. rewrite exp_Ropp. assert (P := exp_pos x). field. lra. Qed.
Lemma conducting_even vgap agap v : conducting vgap agap (- v) = conducting vgap agap v.
Proof. unfold conducting. replace (agap * (- v * vgap + vgap)) with (- agap * (v * vgap - vgap)) by ring. replace (- agap * (- v * vgap - vgap)) with (agap * (v * vgap + vgap)) by ring. ring. Qed.
Lemma exponential_curve_odd vgap rn rsg agap v : exponential_curve vgap rn rsg agap (- v) = - exponential_curve vgap rn rsg agap v.
Proof. unfold exponential_curve. rewrite conducting_even. ring. Qed.
Lemma exponential_fixed v vgap rn rsg agap : vgap <> 0 -> rn <> 0 -> rsg <> 0 -> exponential v vgap rn rsg agap "fixed"%string = Ok (exponential_curve vgap rn rsg agap v).
Proof.
  intros G N S. unfold exponential. destruct (Reqb_spec rn 0); [contradiction|]. match goal with |- (if ?b then _ else _) = _ => replace b with true by reflexivity end. cbv iota zeta. f_equal. unfold exponential_curve, conducting, fermi.
  replace (- agap * (v * vgap + vgap)) with (- (agap * (v * vgap + vgap))) by ring. replace (- agap * (v * vgap - vgap)) with (- (agap * (v * vgap - vgap))) by ring. rewrite !logistic.
  set (a := 1 / (1 + exp (agap * (v * vgap + vgap)))). set (b := 1 / (1 + exp (agap * (v * vgap - vgap)))). field. auto.
Qed.
Theorem polynomial_table n p r : v_smear p = None -> respfn_polynomial spline dspline n p = Ok r ->
  length (rf_current r) = length (rf_voltage r) /\ forall k, (k < length (rf_voltage r))%nat -> nth k (rf_voltage r) 0 = INR k / 200 - 35 /\ nth k (rf_current r) 0 = polynomial_curve n (nth k (rf_voltage r) 0).
Proof.
  intros NS H. unfold respfn_polynomial in H.
  refine (odd_table (polynomial_curve n) (map (fun v => polynomial v n) VINIT) p r (polynomial_curve_odd n) (map_length _ _) _ NS H).
  exact (map_values (polynomial_curve n) VINIT npts vinit_length).
Qed.
Lemma mapM_curve vgap rn rsg agap : vgap <> 0 -> rn <> 0 -> rsg <> 0 -> forall l c, mapM (fun v => exponential v vgap rn rsg agap "fixed"%string) l = Ok c -> c = map (exponential_curve vgap rn rsg agap) l.
Proof.
  intros G N S. induction l as [|a l IH]; intros c E; cbn [mapM] in E; [now inversion E|]. rewrite (exponential_fixed a vgap rn rsg agap G N S) in E. cbn [bind] in E. apply bind_ok in E. destruct E as [zs [E1 E]]. cbn [map]. rewrite <- (IH zs E1). congruence.
Qed.
Theorem exponential_table vgap rn rsg agap p r : vgap <> 0 -> rn <> 0 -> rsg <> 0 -> v_smear p = None -> respfn_exponential spline dspline vgap rn rsg agap p = Ok r ->
  length (rf_current r) = length (rf_voltage r) /\ forall k, (k < length (rf_voltage r))%nat -> nth k (rf_voltage r) 0 = INR k / 200 - 35 /\ nth k (rf_current r) 0 = exponential_curve vgap rn rsg agap (nth k (rf_voltage r) 0).
Proof.
  intros G N S NS H. unfold respfn_exponential in H. apply bind_ok in H. destruct H as [c [E H]].
  assert (EC := mapM_curve vgap rn rsg agap G N S VINIT c E). subst c.
  refine (odd_table (exponential_curve vgap rn rsg agap) (map (exponential_curve vgap rn rsg agap) VINIT) p r (exponential_curve_odd vgap rn rsg agap) (map_length _ _) _ NS H).
  exact (map_values (exponential_curve vgap rn rsg agap) VINIT npts vinit_length).
Qed.
End Tables.
