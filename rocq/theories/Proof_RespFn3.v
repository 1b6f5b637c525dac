(** Proofs about response functions: smearing, the error check, the perfect curve. *)
From Coq Require Import List ZArith Lia Lra Bool Arith Reals String.
From Coquelicot Require Import Complex.
From Verif Require Import Base Model_QtCurrent Float NumPy Proof_NumPy Model_MathFn Spec_MathFn Proof_Circuit Proof_IVModels
  Proof_Slope Proof_Filters Proof_KK Spec_RespFn Model_CleanData Proof_CleanData Model_IVModels Model_RespFn Proof_Nodes Proof_RespFn Proof_RespFn2.
Import ListNotations.
Open Scope R_scope.
Local Notation length := List.length.

(** ** Smearing keeps an odd curve odd *)
Lemma odd_rev d : odd_list d -> rev d = map Ropp d.
Proof.
  intros O. apply (list_ext _ _ 0); [now rewrite rev_length, map_length|]. intros k Hk. rewrite rev_length in Hk. rewrite rev_nth by assumption. rewrite (nth_indep (map Ropp d) 0 (- 0)) by now rewrite map_length.
  rewrite map_nth. rewrite <- O by assumption. f_equal. lia.
Qed.
Lemma rev_odd d : rev d = map Ropp d -> odd_list d.
Proof.
  intros E k Hk. pose proof (f_equal (fun l => nth k l 0) E) as Q. cbv beta in Q. rewrite rev_nth in Q by assumption. rewrite (nth_indep (map Ropp d) 0 (- 0)) in Q by now rewrite map_length. rewrite map_nth in Q.
  rewrite <- Q. f_equal. lia.
Qed.
Lemma conv_opp d s e g : gauss_conv d s e = Ok g -> gauss_conv (map Ropp d) s e = Ok (map Ropp g).
Proof.
  intros H. pose proof (conv_linear (-1) 0 d d s e g g eq_refl H H) as L.
  assert (Z : forall l, zipwith (fun u v => -1 * u + 0 * v) l l = map Ropp l) by (induction l; simpl; [reflexivity|f_equal; [ring|assumption]]). now rewrite !Z in L.
Qed.
Lemma conv_odd d s e M g : (1 <= M)%nat -> s * e = INR M -> odd_list d -> gauss_conv d s e = Ok g -> odd_list g.
Proof.
  intros HM E O H. apply rev_odd. pose proof (conv_reverse d s e M g HM E H) as R. rewrite (odd_rev d O) in R. rewrite (conv_opp d s e g H) in R. congruence.
Qed.
Lemma zip_odd (f : R -> R -> R) a b : (forall x y, f (- x) (- y) = - f x y) -> length a = length b -> odd_list a -> odd_list b -> odd_list (zipwith f a b).
Proof.
  intros F L A B k Hk. rewrite zipwith_length in * by assumption. rewrite !(nth_zipwith _ _ _ _ 0 0 0) by lia. rewrite A by assumption. rewrite L at 1. rewrite B by lia. apply F.
Qed.
Lemma smear_odd v c s M c' : length c = length v -> odd_list v -> odd_list c -> (1 <= M)%nat -> s / (nth 1 v 0 - nth 0 v 0) * 3 = INR M -> smear_curve v c s = Ok c' -> odd_list c' /\ length c' = length v.
Proof.
  intros L OV OC HM E H. unfold smear_curve in H. apply bind_ok in H. destruct H as [v1 [E1 H]]. apply bind_ok in H. destruct H as [v0 [E0 H]].
  assert (2 <= length v)%nat. { destruct (Nat.lt_ge_cases (length v) 2) as [G|G]; [rewrite pyget_err in E1 by lia; discriminate|assumption]. }
  rewrite (pyget_nth v _ 0) in E1 by lia. rewrite (pyget_nth v _ 0) in E0 by lia. injection E1 as <-. injection E0 as <-. change (1 <? 0)%Z with false in H. change (0 <? 0)%Z with false in H. cbv iota in H. change (Z.to_nat 1) with 1%nat in H. change (Z.to_nat 0) with 0%nat in H.
  apply bind_ok in H. destruct H as [? [_ H]]. rewrite bcast_eq in H by assumption. cbn [bind] in H. apply bind_ok in H. destruct H as [g [G H]].
  pose proof (conv_length _ _ _ _ G) as LG. rewrite zipwith_length in LG by assumption. rewrite bcast_eq in H by lia. injection H as <-. split; [|rewrite zipwith_length; lia]. apply zip_odd; try assumption; [intros; ring|lia|].
  apply (conv_odd _ _ _ M _ HM E) in G; [assumption|]. apply zip_odd; try assumption. intros; ring.
Qed.

Section Objects.
Variables spline dspline : list R -> list R -> Z -> R -> R.

(** C43 *)
Lemma object_reflected v c p r : respfn_init spline dspline v c p = Ok r ->
  let n := length v in
  length (rf_voltage r) = (2 * n - 1)%nat /\ odd_list (rf_voltage r) /\ (increasing v -> increasing (rf_voltage r)) /\
  (forall k, (k < n)%nat -> nth (n - 1 + k) (rf_voltage r) 0 = nth k v 0).
Proof.
  intros H n. apply init_inv in H. destruct H as [L [Z [_ [-> _]]]]. split; [now apply reflect_length|]. split; [now apply reflect_odd|]. split; [now apply reflect_increasing|]. intros. now apply reflect_right.
Qed.
Lemma object_current v c p r : length c = length v -> respfn_init spline dspline v c p = Ok r -> v_smear p = None ->
  let n := length v in
  length (rf_current r) = (2 * n - 1)%nat /\
  (forall k, (k < n)%nat -> nth (n - 1 + k) (rf_current r) 0 = nth k c 0) /\
  (forall k, (1 <= k < n)%nat -> nth (n - 1 - k) (rf_current r) 0 = - nth k c 0) /\
  (odd_list (rf_current r) <-> nth 0 c 0 = 0).
Proof.
  intros HC H N n. apply init_inv in H. destruct H as [L [Z [_ [_ [E _]]]]]. rewrite (E N). unfold n. rewrite <- HC. split; [apply reflect_length; lia|]. split; [intros; apply reflect_right; lia|].
  split; [|apply reflect_odd; lia]. intros k Hk. rewrite reflect_mirror by lia. rewrite reflect_right by lia. reflexivity.
Qed.
Lemma object_smeared v c p r s M : length c = length v -> respfn_init spline dspline v c p = Ok r -> v_smear p = Some s -> nth 0 c 0 = 0 ->
  (1 <= M)%nat -> 3 * s = INR M * (nth (length v - 1) v 0 - nth (length v - 2) v 0) -> odd_list (rf_current r) /\ length (rf_current r) = (2 * length v - 1)%nat.
Proof.
  intros HC H N Z0 HM E. apply init_inv in H. destruct H as [L [Z [F [_ [_ [S [KK _]]]]]]]. specialize (S s N).
  assert (L2 : (2 <= length v)%nat). { destruct (Nat.lt_ge_cases (length v) 2) as [G|G]; [|assumption]. exfalso. replace (length v - 1)%nat with 0%nat in F by lia. lra. }
  assert (OV : odd_list (reflect v)) by (apply reflect_odd; [lia|assumption]). assert (OC : odd_list (reflect c)) by (apply reflect_odd; [lia|assumption]).
  assert (LR : length (reflect c) = length (reflect v)) by (rewrite !reflect_length; lia).
  assert (HP : nth 1 (reflect v) 0 - nth 0 (reflect v) 0 <> 0).
  { intros K. unfold smear_curve in S. rewrite !(pyget_nth (reflect v) _ 0) in S by (rewrite reflect_length; lia). change (1 <? 0)%Z with false in S. change (0 <? 0)%Z with false in S. cbv iota in S. change (Z.to_nat 1) with 1%nat in S. change (Z.to_nat 0) with 0%nat in S. cbn [bind] in S.
    destruct (Reqb_spec (nth 1 (reflect v) 0 - nth 0 (reflect v) 0) 0); [discriminate|contradiction]. }
  destruct (smear_odd (reflect v) (reflect c) s M (rf_current r) LR OV OC HM) as [A B]; [|assumption|split; [assumption|now rewrite B, reflect_length by lia]].
  rewrite reflect_first in * by assumption. apply Rmult_eq_reg_r with (nth (length v - 1) v 0 - nth (length v - 2) v 0); [|assumption]. field_simplify; [lra|assumption].
Qed.
Lemma object_kk_even v c p r : length c = length v -> (1 <= kk_n p)%Z -> respfn_init spline dspline v c p = Ok r -> odd_list (rf_current r) -> length (rf_current r) = length (rf_voltage r) ->
  forall t, (t < 2 * length v - 1)%nat -> nth (2 * length v - 2 - t) (rf_current_kk r) 0 = nth t (rf_current_kk r) 0.
Proof.
  intros HC HK H O LC t Ht. apply init_inv in H. destruct H as [L [Z [F [EV [_ [_ [KK _]]]]]]]. rewrite EV in LC. pose proof (reflect_length v L) as LR.
  pose proof (kk_even (reflect v) (rf_current r) (kk_n p) _ t LC HK KK (proj2 (reflect_odd v L) Z) O) as E. rewrite LR in E. rewrite <- E by lia. f_equal. lia.
Qed.

(** C89: what a successful check means. *)
Lemma object_checked v c p r : length c = length v -> (1 <= kk_n p)%Z -> v_smear p = None -> check_error p = true -> respfn_init spline dspline v c p = Ok r ->
  forall k, (k < 2 * length v - 1)%nat -> -34 < nth k (rf_voltage r) 0 < 34 ->
    nth k (rf_current r) 0 - idc r (nth k (rf_voltage r) 0) < max_interp_error p /\ nth k (rf_current_kk r) 0 - ikk r (nth k (rf_voltage r) 0) < max_interp_error p.
Proof.
  intros HC HK NS CE H k Hk B. unfold idc, ikk. apply init_inv in H. destruct H as [L [Z [F [EV [EC [_ [KK [f [df [ST _]]]]]]]]]]. rewrite EV in *. specialize (EC NS). pose proof (reflect_length v L) as LR.
  assert (L1 : length (rf_current r) = length (reflect v)) by (rewrite EC, !reflect_length; lia).
  assert (L2 : (2 <= length v)%nat). { destruct (Nat.lt_ge_cases (length v) 2) as [G|G]; [|assumption]. exfalso. replace (length v - 1)%nat with 0%nat in F by lia. lra. }
  assert (L3 : length (rf_current_kk r) = length (reflect v)).
  { destruct (kk_rejects (reflect v) (rf_current r) (kk_n p) L1 ltac:(lia) HK) as [[_ G] _]. destruct (kk_length _ _ _ L1 ltac:(lia) HK (G (ex_intro _ _ KK))) as [q [Q1 Q2]]. congruence. }
  unfold setup_interpolation in ST. rewrite CE in ST. do 4 (apply bind_ok in ST; destruct ST as [? [_ ST]]). apply bind_ok in ST. destruct ST as [[f1 df1] [_ ST]]. do 2 (apply bind_ok in ST; destruct ST as [? [_ ST]]). apply bind_ok in ST. destruct ST as [[f2 df2] [_ ST]].
  apply bind_ok in ST. destruct ST as [[] [C1 ST]]. apply bind_ok in ST. destruct ST as [[] [C2 ST]]. injection ST as <- <- _ _.
  assert (X : exists k, (k < length (reflect v))%nat /\ -34 < nth k (reflect v) 0 < 34). { exists k. split; [lia|assumption]. }
  rewrite (check_interp_spec _ _ _ _ L1 X) in C1. rewrite (check_interp_spec _ _ _ _ L3 X) in C2. specialize (C1 k ltac:(lia) B). specialize (C2 k ltac:(lia) B). now split.
Qed.
End Objects.

(** ** A curve on which the check misses an error *)
Lemma vinit_reflected : length (reflect VINIT) = (2 * npts - 1)%nat /\ forall k, (k < length (reflect VINIT))%nat -> nth k (reflect VINIT) 0 = INR k / 200 - 35.
Proof.
  assert (W : length (reflect VINIT) = (2 * npts - 1)%nat). { rewrite reflect_length; rewrite vinit_length; [reflexivity|]. pose proof npts_Z. lia. }
  split; [assumption|]. pose proof npts_Z as NZ. induction k as [|k IH]; intros H.
  - rewrite reflect_left by (rewrite vinit_length; lia). rewrite vinit_length, Nat.sub_0_r, vinit_last. change (INR 0) with 0. lra.
  - specialize (IH ltac:(lia)). rewrite W in H. destruct (reflect_step VINIT k) as [j [J E]]; rewrite ?vinit_length in *; [lia|rewrite vinit_nth by lia; change (INR 0) with 0; lra|lia|].
    assert (E2 : nth (S j) VINIT 0 - nth j VINIT 0 = 1 / 200) by (rewrite !vinit_nth by lia; rewrite S_INR; lra). rewrite S_INR. lra.
Qed.

Section Blind.
Variable w : list R.
Hypothesis LB : (13000 <= Z.of_nat (length w))%Z.
Hypothesis w_nth : forall k, (k < length w)%nat -> nth k w 0 = INR k / 200 - 35.
Lemma w_steps k : (S k < length w)%nat -> nth (S k) w 0 - nth k w 0 = 1 / 200.
Proof. intros H. rewrite !w_nth by lia. rewrite S_INR. lra. Qed.
Lemma w_increasing : increasing w.
Proof. intros i j A B. rewrite !w_nth by lia. apply lt_INR in A. lra. Qed.

Variable mx : Z.
Let cs := repeat 0 (length w).
Definition blind (k : nat) (st : list Z * R * R) : Prop :=
  let '(L, c, vl) := st in
  L <> [] /\ c = 0 /\ (forall x, In x L -> (0 <= x < Z.of_nat (Nat.max 1 k))%Z) /\ (k = 302%nat -> In 301%Z L -> vl = nth 301 w 0) /\ ((303 <= k)%nat -> ~ (In 301%Z L /\ In 302%Z L)).
Lemma blind_step k st : (k < length w)%nat -> blind k st -> exists st', visit w cs mx (Z.of_nat k, nth k w 0) st = Ok st' /\ blind (k + 1) st'.
Proof.
  intros Hk. destruct st as [[L c] vl]. intros [NE [-> [I1 [I2 I3]]]]. unfold visit. assert (LC : length cs = length w) by apply repeat_length.
  assert (P0 : forall j, (j < length w)%nat -> nth j cs 0 = 0) by (intros; now apply nth_repeat'). clearbody cs.
  rewrite (pyget_nth cs (Z.of_nat k) 0) by lia. destruct (Z.ltb_spec (Z.of_nat k) 0); [lia|]. rewrite Nat2Z.id. cbn [bind]. rewrite (pyget_nth cs (-1) 0) by lia. change (-1 <? 0)%Z with true. cbv iota. cbn [bind].
  rewrite (P0 k Hk). rewrite (P0 (Z.to_nat (-1 + Z.of_nat (length cs)))) by lia. set (c3 := flt (FV 1) _). assert (c3 = false) as ->.
  { unfold c3. cbn [flt fdiv]. destruct (Reqb_spec 0 0); [|lra]. destruct (Reqb_spec ((0 - 0) * IZR mx) 0) as [_|G]; [reflexivity|]. exfalso. apply G. ring. }
  rewrite orb_false_r. destruct (_ || _)%bool eqn:E.
  - rewrite (pyget_last L 0%Z NE). cbn [bind]. set (L' := if (Z.of_nat k =? last L 0)%Z then L else L ++ [Z.of_nat k]).
    assert (A : forall x, In x L' <-> In x L \/ x = Z.of_nat k).
    { intros x. unfold L'. destruct (Z.eqb_spec (Z.of_nat k) (last L 0%Z)) as [Q|Q].
      - split; [now left|]. intros [G| ->]; [assumption|]. rewrite Q. now apply last_in.
      - rewrite in_app_iff. split; [intros [G|[G|[]]]; [now left|right; now symmetry]|intros [G| ->]; [now left|right; now left]]. }
    eexists. split; [reflexivity|]. unfold blind. split; [intros K; assert (G : In (Z.of_nat k) L') by (apply A; now right); rewrite K in G; destruct G|]. split; [reflexivity|].
    split; [intros x Hx; apply A in Hx; destruct Hx as [Hx| ->]; [apply I1 in Hx|]; lia|].
    split; [intros Q _; replace k with 301%nat by lia; reflexivity|].
    intros Q [G1 G2]. apply A in G1, G2. destruct (Nat.eq_dec k 302) as [K|K].
    + destruct G1 as [G1|G1]; [|lia]. specialize (I2 K G1). clear G2. subst k. exfalso.
      assert (X : nth 302 w 0 = nth 301 w 0 + 1 / 200) by (pose proof (w_steps 301 Hk); lra). pose proof (w_nth 302 Hk) as Y. rewrite INR_IZR_INZ in Y. change (Z.of_nat 302) with 302%Z in Y.
      rewrite I2 in E. rewrite X in E. replace (nth 301 w 0 + 1 / 200 - nth 301 w 0) with (1 / 200) in E by ring. rewrite <- X in E.
      rewrite Y in E. rewrite !Rltb_f in E by (unfold Rabs; destruct (Rcase_abs _); lra). destruct (Rleb_spec 1 (1 / 200)); [lra|].
      destruct (Z.ltb_spec (Z.of_nat 302) 3); [lia|]. destruct (Z.ltb_spec (Z.of_nat (length w) - 4) (Z.of_nat 302)); [lia|]. discriminate.
    + destruct (Nat.lt_ge_cases k 303) as [K2|K2].
      * lia.
      * apply (I3 K2). destruct G1 as [G1|G1]; [|lia]. destruct G2 as [G2|G2]; [|lia]. now split.
  - eexists. split; [reflexivity|]. unfold blind. split; [assumption|]. split; [reflexivity|]. split; [intros x Hx; apply I1 in Hx; lia|].
    split; [intros Q G; apply I1 in G; lia|]. intros Q [G1 G2]. destruct (Nat.eq_dec k 302) as [K|K]; [apply I1 in G2; lia|]. apply I3; [lia|]. now split.
Qed.
Lemma blind_nodes idx : pick_nodes w cs mx = Ok idx -> ~ (In 301%Z idx /\ In 302%Z idx).
Proof.
  intros H. assert (LC : length cs = length w) by apply repeat_length. pose proof H as H0. apply pick_inv in H0. destruct H0 as [_ [_ [_ [lo' [hi' [A1 [A2 NZ]]]]]]].
  destruct (low_high_exists w ltac:(lia)) as [lo [hi [LH [M1 M2]]]]. pose proof LH as [F1 [F2 [K1 K2]]]. rewrite F1 in A1. rewrite F2 in A2. injection A1 as <-. injection A2 as <-.
  pose proof (low_le_high w lo hi w_increasing K1 K2 M1 M2) as LE.
  assert (BIG : (6000 <= Z.of_nat lo)%Z).
  { destruct (Z_lt_le_dec (Z.of_nat lo) 6000) as [Q|Q]; [|assumption]. exfalso. 
    assert (EJ : exists j, (j < length w)%nat /\ Z.of_nat j = 6800%Z) by (exists (Z.to_nat 6800); lia). destruct EJ as [j [J1 J2]]. specialize (M1 j J1). rewrite !w_nth in M1 by lia. rewrite !INR_IZR_INZ in M1. rewrite J2 in M1. apply IZR_lt in Q.
    rewrite (Rabs_left (IZR (Z.of_nat lo) / 200 - 35 + 1)) in M1 by lra. replace (6800 / 200 - 35 + 1) with 0 in M1 by lra. rewrite Rabs_R0 in M1. lra. }
  unfold pick_nodes in H. cbv zeta in H. rewrite (pyget_nth w 0 0) in H by lia. change (0 <? 0)%Z with false in H. cbv iota in H. change (Z.to_nat 0) with 0%nat in H. cbn [bind] in H.
  destruct (foreach_inv blind (fun k => (Z.of_nat k, nth k w 0)) (visit w cs mx) (length w) ([0%Z], 0, nth 0 w 0)) as [[[L c] vl] [EL [_ [_ [I1 [_ I3]]]]]].
  { unfold blind. split; [discriminate|]. split; [reflexivity|]. split; [intros x [<-|[]]; lia|]. split; intros; [discriminate|lia]. }
  { intros k s Hk. now apply blind_step. }
  rewrite <- (enum_eq w 0) in EL. rewrite EL in H. cbn [bind] in H.
  destruct (range3_ok 0 200 20 ltac:(lia)) as [r1 [E1 R1]]. rewrite E1 in H. cbn [bind] in H. destruct (range3_ok (Z.of_nat (length w) - 200 - 1) (Z.of_nat (length w)) 20 ltac:(lia)) as [r2 [E2 R2]]. rewrite E2 in H. cbn [bind] in H.
  rewrite F1 in H. cbn [bind] in H. rewrite F2 in H. cbn [bind] in H.
  destruct (range3_ok (Z.of_nat lo) (Z.of_nat hi) ((Z.of_nat hi - Z.of_nat lo) / 30)) as [r3 [E3 R3]]. { assert (0 <= (Z.of_nat hi - Z.of_nat lo) / 30)%Z by (apply Z.div_pos; lia). lia. }
  rewrite E3 in H. cbn [bind] in H. injection H as <-. intros [G1 G2]. rewrite sorted_set_in, !in_app_iff in G1, G2. apply (I3 ltac:(lia)). split.
  - destruct G1 as [G1|[G1|[G1|G1]]]; [assumption|apply R1 in G1; lia|apply R2 in G1; lia|apply R3 in G1; lia].
  - destruct G2 as [G2|[G2|[G2|G2]]]; [assumption|apply R1 in G2; lia|apply R2 in G2; lia|apply R3 in G2; lia].
Qed.
Lemma cumsum_zero n : cumsum_from 0 (repeat 0 n) = repeat 0 n.
Proof. induction n; [reflexivity|]. simpl. rewrite Rplus_0_r. now rewrite IHn. Qed.
Lemma w_nodup : NoDup w.
Proof.
  apply (NoDup_nth w 0). intros i j A B E. destruct (Nat.lt_trichotomy i j) as [L|[L|L]]; [|assumption|].
  - pose proof (w_increasing i j L B). lra.
  - pose proof (w_increasing j i L A). lra.
Qed.
Lemma map_repeat {A B} (f : A -> B) a n : map f (repeat a n) = repeat (f a) n.
Proof. induction n; simpl; [reflexivity|now rewrite IHn]. Qed.
Lemma blind_sample s idx : sample_curve w w mx s = Ok idx -> ~ (In 301%Z idx /\ In 302%Z idx).
Proof.
  intros H. apply blind_nodes. unfold sample_curve in H.
  rewrite (slope_line 1 0 w w) in H; [|split; [reflexivity|intros; ring]|apply w_nodup|lia]. cbn [bind] in H. rewrite <- map_repeat, reals_ok in H. cbn [bind] in H.
  rewrite (slope_line 0 1 w) in H; [|split; [apply repeat_length|intros; rewrite nth_repeat' by assumption; ring]|apply w_nodup|lia]. cbn [bind] in H. rewrite <- map_repeat, reals_ok in H. cbn [bind] in H. cbv zeta in H.
  do 3 (apply bind_ok in H; destruct H as [? [_ H]]). apply bind_ok in H. destruct H as [sm [G H]]. rewrite map_repeat, Rabs_R0 in G. apply conv_constant in G. subst sm. now rewrite cumsum_zero in H.
Qed.
End Blind.

(** An interpolation that is right at the nodes only. *)
Definition spiky (x y : list R) (k : Z) (t : R) : R :=
  match filter (fun p => Reqb (fst p) t) (List.combine x y) with p :: _ => snd p | [] => 1000 end.
Lemma spiky_cases v c idx k t : length c = length v -> (forall x, In x idx -> (0 <= x < Z.of_nat (length v))%Z) ->
  let s := spiky (map (fun k => nth (Z.to_nat k) v 0) idx) (map (fun k => nth (Z.to_nat k) c 0) idx) k t in
  (exists i, In i idx /\ t = nth (Z.to_nat i) v 0 /\ s = nth (Z.to_nat i) c 0) \/ ((forall i, In i idx -> t <> nth (Z.to_nat i) v 0) /\ s = 1000).
Proof.
  intros HC B s. unfold s, spiky. assert (E : List.combine (map (fun k => nth (Z.to_nat k) v 0) idx) (map (fun k => nth (Z.to_nat k) c 0) idx) = map (fun k => (nth (Z.to_nat k) v 0, nth (Z.to_nat k) c 0)) idx) by (clear; induction idx; simpl; congruence).
  rewrite E. set (Q := filter _ _). assert (IQ : forall p, In p Q <-> exists i, In i idx /\ p = (nth (Z.to_nat i) v 0, nth (Z.to_nat i) c 0) /\ nth (Z.to_nat i) v 0 = t).
  { intros p. unfold Q. rewrite filter_In, in_map_iff. split.
    - intros [[i [<- Hi]] G]. exists i. cbn [fst] in G. destruct (Reqb_spec (nth (Z.to_nat i) v 0) t); [|discriminate]. now repeat split.
    - intros [i [Hi [-> G]]]. split; [now exists i|]. cbn [fst]. now apply Reqb_t. }
  destruct Q as [|p Q'].
  - right. split; [|reflexivity]. intros i Hi K. assert (In (nth (Z.to_nat i) v 0, nth (Z.to_nat i) c 0) []) by (apply IQ; exists i; now repeat split). contradiction.
  - left. destruct (proj1 (IQ p) (or_introl eq_refl)) as [i [Hi [-> G]]]. exists i. now repeat split.
Qed.

Definition checked : params := {| max_npts_dc := 101; max_npts_kk := 151; max_interp_error := 1 / 1000; check_error := true; v_smear := None; kk_n := 50; spline_order := 3 |}.
Lemma spiky_check v c idx k b : increasing v -> length c = length v -> (forall x, In x idx -> (0 <= x < Z.of_nat (length v))%Z) -> (forall i, nth i c 0 <= 1000) -> 0 < b -> (exists j, (j < length v)%nat /\ -34 < nth j v 0 < 34) ->
  check_interp v c (spiky (map (fun k => nth (Z.to_nat k) v 0) idx) (map (fun k => nth (Z.to_nat k) c 0) idx) k) b = Ok tt.
Proof.
  intros I HC B U P X. apply check_interp_spec; [assumption|assumption|]. intros j Hj _. destruct (spiky_cases v c idx k (nth j v 0) HC B) as [[i [Hi [E1 ->]]]|[_ ->]].
  - specialize (B i Hi). assert (j = Z.to_nat i) as ->; [|lra]. destruct (Nat.lt_trichotomy j (Z.to_nat i)) as [L|[L|L]]; [|assumption|].
    + specialize (I j (Z.to_nat i) L ltac:(lia)). lra.
    + specialize (I (Z.to_nat i) j L Hj). lra.
  - specialize (U j). lra.
Qed.
Lemma check_blind_on v : grid_ok v -> length (reflect v) = (2 * length v - 1)%nat -> (Z.of_nat (length v) = 7001)%Z -> (forall k, (k < length (reflect v))%nat -> nth k (reflect v) 0 = INR k / 200 - 35) ->
  exists r k, respfn_init spiky spiky v v checked = Ok r /\ (k < length (rf_voltage r))%nat /\ -34 < nth k (rf_voltage r) 0 < 34 /\
  nth k (rf_current r) 0 - idc r (nth k (rf_voltage r) 0) < - 1000.
Proof.
  intros G LW NZ NW. set (w := reflect v) in *. assert (LB : (13000 <= Z.of_nat (length w))%Z) by lia. pose proof (w_increasing w NW) as IW.
  destruct (kk_length w w 50 eq_refl ltac:(lia) ltac:(lia)) as [ckk [KK LKK]]; [apply reflect_even; [lia|apply G|apply G]|].
  assert (ckk = repeat 0 (length w)) as ->. { rewrite kk_resistor in KK; [congruence|lia|lia|]. apply reflect_even; [lia|apply G|apply G]. }
  destruct (sample_accepts spiky spiky v w 101 (1 / 4) G eq_refl ltac:(lra)) as [i1 [S1 [A1 [B1 N1]]]]. destruct (sample_accepts spiky spiky v w 151 1 G eq_refl ltac:(lra)) as [i2 [S2 [A2 [B2 N2]]]]. fold w in S1, S2, B1, B2.
  assert (X : exists j, (j < length w)%nat /\ -34 < nth j w 0 < 34). { exists (length v - 1)%nat. split; [lia|]. rewrite NW by lia. rewrite minus_INR by lia. rewrite (INR_IZR_INZ (length v)), NZ. change (INR 1) with 1. lra. }
  assert (UW : forall i, nth i w 0 <= 1000). { intros i. destruct (Nat.lt_ge_cases i (length w)) as [L|L]; [|rewrite nth_overflow by lia; lra]. rewrite NW by assumption. assert (INR i <= 14000). { rewrite INR_IZR_INZ. apply IZR_le. lia. } lra. }
  eexists. exists (if in_dec Z.eq_dec 301%Z i1 then 302%nat else 301%nat). split.
  - unfold respfn_init. rewrite (pyget_nth v 0 0) by (lia). change (0 <? 0)%Z with false. cbv iota. change (Z.to_nat 0) with 0%nat. cbn [bind]. destruct G as [_ [-> [F _]]]. rewrite Reqb_t by reflexivity. cbn [guard bind].
    rewrite (pyget_nth v (-1) 0) by (lia). change (-1 <? 0)%Z with true. cbv iota. replace (Z.to_nat (-1 + Z.of_nat (length v))) with (length v - 1)%nat by (lia). cbn [bind]. rewrite (Rltb_t _ _ F). cbn [guard bind]. cbv zeta.
    fold w. cbn [v_smear checked bind kk_n]. rewrite KK. cbn [bind]. unfold setup_interpolation. cbn [max_npts_dc max_npts_kk spline_order check_error checked max_interp_error].
    rewrite S1. cbn [bind]. rewrite S2. cbn [bind]. rewrite (at_indices_ok w i1) by assumption. cbn [bind]. rewrite interp_ok; [|now apply nodes_increasing|reflexivity|lia|now rewrite map_length]. cbn [bind].
    rewrite (at_indices_ok w i2) by assumption. cbn [bind]. rewrite at_indices_ok by (rewrite repeat_length; assumption). cbn [bind]. rewrite interp_ok; [|now apply nodes_increasing|now rewrite !map_length|lia|now rewrite map_length]. cbn [bind].
    rewrite spiky_check; [|assumption|reflexivity|assumption|assumption|lra|assumption]. cbn [bind]. rewrite spiky_check; [|assumption|apply repeat_length|assumption| |lra|assumption]; [cbn [bind]; reflexivity|].
    intros i. destruct (Nat.lt_ge_cases i (length w)); [rewrite nth_repeat' by assumption; lra|rewrite nth_overflow by (rewrite repeat_length; lia); lra].
  - cbn [rf_voltage rf_current f_idc idc]. set (k := if in_dec Z.eq_dec 301%Z i1 then 302%nat else 301%nat).
    assert (K : k = 301%nat \/ k = 302%nat) by (unfold k; destruct (in_dec Z.eq_dec 301%Z i1); tauto). assert (NI : ~ In (Z.of_nat k) i1).
    { unfold k. destruct (in_dec Z.eq_dec 301%Z i1) as [I1|I1]; [|assumption]. intros I2. apply (blind_sample w LB NW 101 (1 / 4) i1 S1). now split. }
    assert (KL : (k < length w)%nat) by lia. split; [assumption|]. assert (V : -34 < nth k w 0 < -33). { rewrite NW by assumption. rewrite INR_IZR_INZ. destruct K as [-> | ->]; cbn; lra. } split; [lra|].
    destruct (spiky_cases w w i1 3 (nth k w 0) eq_refl B1) as [[i [Hi [E1 _]]]|[_ ->]]; [|lra]. exfalso. apply NI. specialize (B1 i Hi). assert (k = Z.to_nat i) as ->; [|now rewrite Z2Nat.id by lia].
    destruct (Nat.lt_trichotomy k (Z.to_nat i)) as [L|[L|L]]; [|assumption|].
    + specialize (IW k (Z.to_nat i) L ltac:(lia)). lra.
    + specialize (IW (Z.to_nat i) k L KL). lra.
Qed.
Lemma check_blind : exists r k, respfn_init spiky spiky VINIT VINIT checked = Ok r /\ (k < length (rf_voltage r))%nat /\ -34 < nth k (rf_voltage r) 0 < 34 /\
  nth k (rf_current r) 0 - idc r (nth k (rf_voltage r) 0) < - 1000.
Proof. destruct vinit_reflected as [L N]. apply check_blind_on; [exact vinit_grid|rewrite vinit_length; exact L|rewrite vinit_length; exact npts_Z|exact N]. Qed.
