(** The response functions take the values of their tables. *)
From Coq Require Import List ZArith Bool Lia Reals Lra.
From Coquelicot Require Import Coquelicot.
From Verif Require Import Base Model_QtCurrent Float NumPy Proof_NumPy Model_MathFn Spec_MathFn Proof_Circuit Proof_IVModels
  Proof_Slope Proof_Filters Proof_KK Spec_RespFn Spec_Interp Model_CleanData Proof_CleanData Model_IVModels Model_RespFn Proof_Nodes Proof_RespFn Proof_RespFn2 Proof_RespFn3 Proof_RespFn4.
Import ListNotations.
Open Scope R_scope.
Local Notation length := List.length.

Lemma strictly_spec l : strictly_increasing l = true -> increasing l.
Proof.
  intros H i j L J. destruct (nth_split l 0 J) as [l1 [l2 [E1 E2]]]. destruct (nth_split l1 0 (n := i)) as [l3 [l4 [E3 E4]]]; [lia|].
  assert (N : nth i l 0 = nth i l1 0) by (rewrite E1, app_nth1 by lia; reflexivity). rewrite N.
  apply (increasing_spec l H l3 (nth i l1 0) l4 (nth j l 0) l2). rewrite E1 at 1. rewrite E3 at 1. now rewrite <- app_assoc.
Qed.
Lemma at_indices_nth l : forall idx ys, at_indices l idx = Ok ys -> length ys = length idx /\ forall m, (m < length idx)%nat -> pyget l (nth m idx 0%Z) = Ok (nth m ys 0).
Proof.
  unfold at_indices. induction idx as [|a idx IH]; intros ys H; cbn [mapM] in H.
  - inversion H. split; [reflexivity|]. intros m M. cbn in M. lia.
  - apply bind_ok in H. destruct H as [y [E H]]. apply bind_ok in H. destruct H as [zs [H1 H]]. inversion H. subst ys. destruct (IH zs H1) as [L N]. split; [cbn; now rewrite L|]. intros [|m] M; cbn [nth]; [exact E|]. apply N. cbn in M. lia.
Qed.
Section Spline.
Variable spline dspline : list R -> list R -> Z -> R -> R.
Lemma interp_inv x y k f df : interp spline dspline x y k = Ok (f, df) -> increasing x /\ length y = length x /\ (1 <= k <= 5)%Z /\ (k < Z.of_nat (length x))%Z /\ f = spline x y k /\ df = dspline x y k.
Proof.
  unfold interp. intros H. apply bind_ok in H. destruct H as [[] [A H]]. apply bind_ok in H. destruct H as [[] [B H]]. apply bind_ok in H. destruct H as [[] [C H]]. apply bind_ok in H. destruct H as [[] [D H]].
  destruct (strictly_increasing x) eqn:E1; [|discriminate]. destruct (Nat.eqb_spec (length x) (length y)) as [E2|]; [|discriminate]. destruct ((1 <=? k)%Z && (k <=? 5)%Z)%bool eqn:E3; [|discriminate]. destruct (Z.ltb_spec k (Z.of_nat (length x))) as [E4|]; [|discriminate].
  apply andb_true_iff in E3. destruct E3 as [E5 E6]. apply Z.leb_le in E5, E6. inversion H. repeat split; try assumption; try lia; try (now symmetry). now apply strictly_spec.
Qed.
Lemma through v c idx x y k f df n : interpolating spline -> at_indices v idx = Ok x -> at_indices c idx = Ok y -> interp spline dspline x y k = Ok (f, df) -> length c = length v ->
  In (Z.of_nat n) idx -> (n < length v)%nat -> f (nth n v 0) = nth n c 0.
Proof.
  intros S X Y I L IN N. destruct (at_indices_nth _ _ _ X) as [LX NX]. destruct (at_indices_nth _ _ _ Y) as [LY NY]. destruct (interp_inv _ _ _ _ _ I) as [A [B [C [D [-> _]]]]].
  destruct (In_nth idx (Z.of_nat n) 0%Z IN) as [m [M E]]. specialize (NX m M). specialize (NY m M). rewrite E in NX, NY.
  rewrite (pyget_nth v _ 0) in NX by lia. rewrite (pyget_nth c _ 0) in NY by lia. destruct (Z.ltb_spec (Z.of_nat n) 0); [lia|]. rewrite Nat2Z.id in NX, NY. assert (NX' : nth n v 0 = nth m x 0) by congruence. assert (NY' : nth n c 0 = nth m y 0) by congruence. rewrite NX', NY'. apply S; try assumption. lia.
Qed.
(** C44: the functions go through their tables at the nodes. *)
Theorem table_values v c p r : interpolating spline -> increasing v -> length c = length v -> (1 <= kk_n p)%Z -> respfn_init spline dspline v c p = Ok r -> length (rf_current r) = length (rf_voltage r) ->
  forall k, (k < length (rf_voltage r))%nat ->
    k = 0%nat \/ k = (length (rf_voltage r) - 1)%nat \/ Rabs (nth k (rf_voltage r) 0) < 1 / 20 \/ Rabs (nth k (rf_voltage r) 0 - 1) < 1 / 10 \/ Rabs (nth k (rf_voltage r) 0 + 1) < 1 / 10 ->
    idc r (nth k (rf_voltage r) 0) = nth k (rf_current r) 0 /\ ikk r (nth k (rf_voltage r) 0) = nth k (rf_current_kk r) 0.
Proof.
  intros S I HC HK H LC k K B. assert (L100 : (100 < length v)%nat). { destruct (Nat.lt_ge_cases 100 (length v)) as [G|G]; [assumption|]. exfalso. exact (too_short spline dspline v c p I G (ex_intro _ r H)). }
  unfold idc, ikk. apply init_inv in H. destruct H as [L [Z [F [EV [EC [_ [KK [f [df [ST _]]]]]]]]]]. rewrite EV in *. pose proof (reflect_length v L) as LR. pose proof (reflect_increasing v L Z I) as IR.
  assert (L3 : length (rf_current_kk r) = length (reflect v)).
  { destruct (kk_rejects (reflect v) (rf_current r) (kk_n p) LC ltac:(lia) HK) as [[_ G] _]. destruct (kk_length _ _ _ LC ltac:(lia) HK (G (ex_intro _ _ KK))) as [q [Q1 Q2]]. congruence. }
  unfold setup_interpolation in ST. apply bind_ok in ST. destruct ST as [i1 [S1 ST]]. apply bind_ok in ST. destruct ST as [i2 [S2 ST]]. apply bind_ok in ST. destruct ST as [xd [XD ST]]. apply bind_ok in ST. destruct ST as [yd [YD ST]]. apply bind_ok in ST. destruct ST as [[f1 df1] [I1 ST]].
  apply bind_ok in ST. destruct ST as [xk [XK ST]]. apply bind_ok in ST. destruct ST as [yk [YK ST]]. apply bind_ok in ST. destruct ST as [[f2 df2] [I2 ST]]. apply bind_ok in ST. destruct ST as [[] [_ ST]]. apply bind_ok in ST. destruct ST as [[] [_ ST]]. injection ST as <- <- _ _.
  destruct (nodes_valid _ _ _ _ _ IR LC ltac:(lia) S1) as [_ [_ [A0 [A1 [A2 _]]]]]. destruct (nodes_valid _ _ _ _ _ IR LC ltac:(lia) S2) as [_ [_ [B0 [B1 [B2 _]]]]].
  assert (N1 : In (Z.of_nat k) i1). { destruct B as [->|[->|B]]; [exact A0| |now apply A2]. replace (Z.of_nat (length (reflect v) - 1)) with (Z.of_nat (length (reflect v)) - 1)%Z by lia. exact A1. }
  assert (N2 : In (Z.of_nat k) i2). { destruct B as [->|[->|B]]; [exact B0| |now apply B2]. replace (Z.of_nat (length (reflect v) - 1)) with (Z.of_nat (length (reflect v)) - 1)%Z by lia. exact B1. }
  split; [apply (through _ _ _ _ _ _ _ _ _ S XD YD I1 LC N1 K)|apply (through _ _ _ _ _ _ _ _ _ S XK YK I2 L3 N2 K)].
Qed.
(** C90: the slopes are the derivatives of the interpolations. *)
Theorem slopes_derive v c p r : derivative_of spline dspline -> respfn_init spline dspline v c p = Ok r -> forall t, didc r t = Ok (Derive (idc r) t) /\ dikk r t = Ok (Derive (ikk r) t).
Proof.
  intros D H t. apply init_inv in H. destruct H as [_ [_ [_ [_ [_ [_ [_ [f [df [ST [E1 E2]]]]]]]]]]]. unfold didc, dikk, idc, ikk. rewrite E1, E2.
  unfold setup_interpolation in ST. do 4 (apply bind_ok in ST; destruct ST as [? [_ ST]]). apply bind_ok in ST. destruct ST as [[f1 df1] [I1 ST]]. do 2 (apply bind_ok in ST; destruct ST as [? [_ ST]]). apply bind_ok in ST. destruct ST as [[f2 df2] [I2 ST]]. apply bind_ok in ST. destruct ST as [[] [_ ST]]. apply bind_ok in ST. destruct ST as [[] [_ ST]].
  destruct (interp_inv _ _ _ _ _ I1) as [_ [_ [_ [_ [F1 G1]]]]]. destruct (interp_inv _ _ _ _ _ I2) as [_ [_ [_ [_ [F2 G2]]]]]. injection ST as Q1 Q2 Q3 Q4. rewrite <- Q1, <- Q2, <- Q3, <- Q4, F1, G1, F2, G2. split; f_equal; apply D.
Qed.
End Spline.

(** An interpolation: the value at the nodes, 0 elsewhere. *)
Fixpoint lookup (x y : list R) (t : R) : R := match x, y with a :: x', b :: y' => if Req_EM_T a t then b else lookup x' y' t | _, _ => 0 end.
Lemma lookup_interpolating : interpolating (fun x y _ => lookup x y).
Proof.
  intros x y k j I L _ _ J. clear k. revert y j I L J. induction x as [|a x IH]; intros [|b y] j I L J; cbn in L, J; try lia. cbn [lookup]. destruct j as [|j]; cbn [nth].
  - destruct (Req_EM_T a a); [reflexivity|contradiction].
  - destruct (Req_EM_T a (nth j x 0)) as [E|_]. { exfalso. specialize (I 0%nat (S j) ltac:(lia) ltac:(cbn; lia)). cbn [nth] in I. lra. }
    apply IH; try lia. intros p q P Q. apply (I (S p) (S q)); cbn; lia.
Qed.
