(** Proofs about straight shot-noise lines and the range that is found automatically. *)
From Coq Require Import List ZArith Bool Lia Arith Reals Lra Permutation String.
From Verif Require Import Base Model_QtCurrent Proof_Circuit Proof_IVModels Float NumPy Proof_NumPy Spec_CleanData Proof_CleanData Model_CleanData Spec_MathFn Model_MathFn Spec_RespFn Model_RespFn Proof_RespFn2 Spec_IVData Model_IVData Proof_IVData Proof_IVCurve Spec_IFData Model_IFData Proof_IFNoise Proof_IFLoad Proof_IFShot Proof_IFCases Spec_IFShot Proof_IFShot2.
Import ListNotations.
Open Scope R_scope.
Local Notation length := List.length.
Local Notation rising := Spec_RespFn.increasing.

Definition tiny : R := / 10 ^ 10.
Lemma tiny_pos : 0 < tiny.
Proof. apply Rinv_0_lt_compat, pow_lt. lra. Qed.

(** ** Slopes over 11 points *)
Section Span.
Variables x y : list R.
Hypothesis L : length y = length x.
Hypothesis ND : NoDup x.
Hypothesis N17 : (17 <= length x)%nat.
(** Every slope is that between two samples at most 11 before. *)
Lemma raw_secant i : (i < length x)%nat -> exists p q, (p < q < length x)%nat /\ (i <= p + 11)%nat /\ Proof_Slope.raw x y 5 i = secant x y p q.
Proof.
  intros I. unfold Proof_Slope.raw. cbv zeta. set (N := length x) in *. set (j := if (i =? 0)%nat then _ else _). assert (J : (1 <= j < N)%nat /\ (i <= j \/ i = N - 1 /\ j = N - 2)%nat /\ (j < N - 1)%nat) by (unfold j; destruct (Nat.eqb_spec i 0), (Nat.eqb_spec i (N - 1)); lia). clearbody j.
  destruct (Nat.leb_spec j 5); [|destruct (Nat.leb_spec (N - 5) j)].
  - exists j, (3 * j + 1)%nat. repeat split; lia.
  - exists (N - 3 * (N - j) - 1)%nat, j. repeat split; lia.
  - exists (j - 5 - 1)%nat, (j + 5)%nat. repeat split; lia.
Qed.
Lemma secant_finite p q : (p < q < length x)%nat -> secant x y p q = FV ((nth q y 0 - nth p y 0) / (nth q x 0 - nth p x 0)).
Proof.
  intros H. unfold secant, fdiv. rewrite Reqb_f; [reflexivity|]. pose proof (Proof_Slope.NoDup_diff x p q ND ltac:(lia) ltac:(lia) ltac:(lia)). lra.
Qed.
Lemma span11 : exists s, slope_span_n x y 11 true = Ok (map FV s) /\ length s = length x /\
  forall i, (i < length x)%nat -> exists p q, (p < q < length x)%nat /\ (i <= p + 11)%nat /\
    let r := (nth q y 0 - nth p y 0) / (nth q x 0 - nth p x 0) in nth i s 0 = if Reqb r 0 then tiny else r.
Proof.
  destruct (Proof_Slope.span_spec x y L 5 ltac:(lia) true ltac:(lia)) as [d [E [LD D]]]. change (2 * Z.of_nat 5 + 1)%Z with 11%Z in E.
  assert (F : forall i, (i < length x)%nat -> exists p q, (p < q < length x)%nat /\ (i <= p + 11)%nat /\
    let r := (nth q y 0 - nth p y 0) / (nth q x 0 - nth p x 0) in nth i d (FV 0) = FV (if Reqb r 0 then tiny else r)).
  { intros i I. destruct (raw_secant i I) as [p [q [PQ [IP R]]]]. exists p, q. split; [assumption|]. split; [assumption|]. cbv zeta. rewrite D by assumption. cbv zeta. rewrite R, secant_finite by assumption. cbn [andb feq]. destruct (Reqb _ 0); reflexivity. }
  exists (map (fun a => match a with FV r => r | _ => 0 end) d). rewrite map_length. split; [|split; [assumption|]].
  - rewrite E. f_equal. rewrite map_map. rewrite <- (map_id d) at 1. apply map_ext_in. intros a A. destruct (In_nth _ _ (FV 0) A) as [i [I <-]]. rewrite LD in I. destruct (F i I) as [p [q [_ [_ ->]]]]. reflexivity.
  - intros i I. destruct (F i I) as [p [q [PQ [IP R]]]]. exists p, q. split; [assumption|]. split; [assumption|]. cbv zeta in *. rewrite (nth_map_in _ d i 0 (FV 0)) by lia. now rewrite R.
Qed.
End Span.

Section Oracle.
Variable smooth : list R -> Z -> Z -> list R.
Hypothesis KL : keeps_length smooth.

(** ** The slopes exist *)
Lemma slopes_exist x y : length y = length x -> NoDup x -> (17 <= length x)%nat -> exists d1 d2 top, slopes smooth x y = Ok (d1, d2) /\ length d1 = length x /\ length d2 = length x /\ amax (map Rabs d2) = Ok top.
Proof.
  intros L ND N. destruct (span11 x (smooth y 21%Z 3%Z) ltac:(now rewrite KL) ND N) as [s1 [E1 [L1 _]]]. destruct (span11 x (smooth s1 51%Z 3%Z) ltac:(now rewrite KL) ND N) as [s2 [E2 [L2 _]]].
  exists (smooth s1 51%Z 3%Z), (smooth (map Rabs s2) 51%Z 3%Z). destruct (amax_some (map Rabs (smooth (map Rabs s2) 51%Z 3%Z))) as [top T].
  { intros E. apply map_eq_nil in E. apply (f_equal (@length R)) in E. rewrite KL, map_length in E. cbn in E. lia. }
  exists top. split; [apply slopes_spec; exists s1, s2; auto|]. rewrite !KL, map_length. auto.
Qed.

(** ** Samples on a line above 1.7 gap voltages *)
Lemma auto_exact x y dc a b : length x = length y -> rising x -> (17 <= length x)%nat -> dc_vgap dc <> 0 -> a <> 0 ->
  (forall k, (k < length x)%nat -> 17 / 10 < nth k x 0 -> nth k y 0 = a * nth k x 0 + b) -> 2 < nth (length x - 2) x 0 ->
  exists n corr line fit, find_if_noise smooth x y dc None = Ok (n, corr, line, fit) /\ corr * a = 5800 * dc_vgap dc /\ line = map (fun t => (a * t + b) * corr) x /\
    (forall k, (k < length x)%nat -> 17 / 10 < nth k x 0 -> nth k y 0 * corr = 5800 * (nth k x 0 * dc_vgap dc) + b * corr) /\
    (nth 0 x 0 <= dc_vint dc / dc_vgap dc <= nth (length x - 1) x 0 -> n = 5800 * dc_vint dc + b * corr).
Proof.
  intros L RX N G A OL TW. assert (ND : NoDup x). { apply (NoDup_nth x 0). intros i j I J E. destruct (Nat.lt_trichotomy i j) as [H|[H|H]]; [pose proof (RX i j H J); lra|assumption|pose proof (RX j i H I); lra]. }
  destruct (slopes_exist x y (eq_sym L) ND N) as [d1 [d2 [top [SL [L1 [L2 T]]]]]]. pose proof (auto_noise smooth KL x y dc L) as E. rewrite SL in E. cbn [bind fst snd] in E. rewrite T in E. cbn [bind] in E.
  set (P := auto_fit x y d1 d2 top) in *. assert (FO : found_samples x y d1 d2 P) by now apply found.
  assert (OP : on_the_line P a b).
  { intros p I. destruct (found_above x y d1 d2 P p L FO I) as [H C]. rewrite combine_tab in C by assumption. apply in_map_iff in C. destruct C as [k [<- K]]. apply in_seq in K. cbn [fst snd] in *. apply OL; [lia|assumption]. }
  assert (SP : spread P).
  { unfold P, auto_fit. destruct (Nat.ltb_spec (length (kept x d1 d2 top)) 5) as [H|H].
    - assert (IN : forall k, (k < length x)%nat -> 2 < nth k x 0 -> In (nth k x 0, nth k y 0) (filter (fun p => if Rlt_dec 2 (fst p) then true else false) (List.combine x y))).
      { intros k K B. apply filter_In. split; [rewrite combine_tab by assumption; apply in_map_iff; exists k; split; [reflexivity|apply in_seq; lia]|]. cbn [fst]. destruct (Rlt_dec 2 (nth k x 0)); [reflexivity|contradiction]. }
      pose proof (RX (length x - 2)%nat (length x - 1)%nat ltac:(lia) ltac:(lia)). exists (nth (length x - 2) x 0, nth (length x - 2) y 0), (nth (length x - 1) x 0, nth (length x - 1) y 0). split; [apply IN; [lia|assumption]|]. split; [apply IN; [lia|lra]|]. cbn [fst]. lra.
    - assert (NK : NoDup (kept x d1 d2 top)) by (apply NoDup_filter, seq_NoDup). assert (KN : forall k, In k (kept x d1 d2 top) -> (k < length x)%nat) by (intros k K; apply filter_In in K; destruct K as [K _]; apply in_seq in K; lia).
      destruct (kept x d1 d2 top) as [|i [|j l]]; cbn [List.length] in H; try lia. exists (nth i x 0, nth i y 0), (nth j x 0, nth j y 0). cbn [map fst]. split; [now left|]. split; [right; now left|].
      apply Proof_Slope.NoDup_diff; [assumption|apply KN; now left|apply KN; right; now left|]. intros ->. inversion NK as [|? ? NI _]. apply NI. now left. }
  assert (NE : x <> []) by (intros ->; cbn in N; lia).
  destruct (calibrate_line x dc P a b SP OP A G NE) as [fit C]. rewrite C in E. do 4 eexists. split; [exact E|]. split; [field; assumption|]. split; [reflexivity|]. split.
  - intros k K H. rewrite OL by assumption. field. assumption.
  - intros R. rewrite (shot_noise_value x dc P a b _ _ _ _ C RX ltac:(lia) SP OP A R). field. split; assumption.
Qed.

(** ** An even grid and a filter that leaves lines unchanged *)
Hypothesis FL : follows_lines smooth.
Section Grid.
Variables (x : list R) (st : R).
Hypothesis ST : 0 < st.
Hypothesis GR : forall k, (k < length x)%nat -> nth k x 0 = INR k * st.
Hypothesis N51 : (51 <= length x)%nat.
Lemma grid_rising : rising x.
Proof. intros i j IJ J. rewrite !GR by lia. apply Rmult_lt_compat_r; [assumption|now apply lt_INR]. Qed.
Lemma grid_nodup : NoDup x.
Proof. apply (NoDup_nth x 0). intros i j I J E. destruct (Nat.lt_trichotomy i j) as [H|[H|H]]; [pose proof (grid_rising i j H J); lra|assumption|pose proof (grid_rising j i H I); lra]. Qed.
Lemma smooth_tail l w a b j : length l = length x -> (1 <= w <= 51)%nat -> (forall i, (j <= i < length x)%nat -> nth i l 0 = a * nth i x 0 + b) ->
  forall k, (j + (w - 1) <= k < length x)%nat -> nth k (smooth l (Z.of_nat w) 3%Z) 0 = a * nth k x 0 + b.
Proof.
  intros LL W H k K. rewrite GR by lia. transitivity ((a * st) * INR k + b); [|ring]. apply FL; [lia|lia|]. intros i I D. rewrite H by lia. rewrite GR by lia. ring.
Qed.
Lemma span_tail y a b j : length y = length x -> (forall i, (j <= i < length x)%nat -> nth i y 0 = a * nth i x 0 + b) ->
  forall s, slope_span_n x y 11 true = Ok (map FV s) -> forall k, (j + 11 <= k < length x)%nat -> nth k s 0 = if Reqb a 0 then tiny else a.
Proof.
  intros L H s E k K. destruct (span11 x y L grid_nodup ltac:(lia)) as [s' [E' [LS F]]]. rewrite E in E'. apply (f_equal (fun r => match r with Ok l => l | Err _ => [] end)) in E'. apply (f_equal (map (fun a => match a with FV r => r | _ => 0 end))) in E'. rewrite !map_map, !map_id in E'. subst s'.
  destruct (F k ltac:(lia)) as [p [q [PQ [KP R]]]]. cbv zeta in R. rewrite R. rewrite !H by lia. pose proof (grid_rising p q ltac:(lia) ltac:(lia)).
  replace ((a * nth q x 0 + b - (a * nth p x 0 + b)) / (nth q x 0 - nth p x 0)) with a by (field; lra). reflexivity.
Qed.
(** A line from sample j on: the slopes behind. *)
Lemma line_slopes y a b j d1 d2 : length y = length x -> a <> 0 -> (forall i, (j <= i < length x)%nat -> nth i y 0 = a * nth i x 0 + b) -> derivatives smooth x y d1 d2 ->
  (forall k, (j + 81 <= k < length x)%nat -> nth k d1 0 = a) /\ (forall k, (j + 142 <= k < length x)%nat -> nth k d2 0 = tiny).
Proof.
  intros L A H [s1 [s2 [E1 [-> [E2 ->]]]]].
  assert (LS : forall u s, length u = length x -> slope_span_n x u 11 true = Ok (map FV s) -> length s = length x).
  { intros u s LU E. apply span11_length in E; [|assumption]. rewrite map_length in E. apply E. }
  assert (LS1 := LS _ _ (eq_trans (KL _ _ _) L) E1). assert (LS2 := LS _ _ (eq_trans (KL _ _ _) LS1) E2).
  assert (Y : forall k, (j + 20 <= k < length x)%nat -> nth k (smooth y 21%Z 3%Z) 0 = a * nth k x 0 + b) by (intros k K; apply (smooth_tail y 21 a b j L ltac:(lia) H); lia).
  assert (S1 : forall k, (j + 31 <= k < length x)%nat -> nth k s1 0 = 0 * nth k x 0 + a).
  { intros k K. rewrite (span_tail _ a b (j + 20) (eq_trans (KL _ _ _) L) Y s1 E1) by lia. rewrite Reqb_f by assumption. ring. }
  assert (D1 : forall k, (j + 81 <= k < length x)%nat -> nth k (smooth s1 51%Z 3%Z) 0 = 0 * nth k x 0 + a) by (intros k K; apply (smooth_tail s1 51 0 a (j + 31) LS1 ltac:(lia) S1); lia).
  split; [intros k K; rewrite D1 by lia; ring|].
  assert (S2 : forall k, (j + 92 <= k < length x)%nat -> nth k (map Rabs s2) 0 = 0 * nth k x 0 + tiny).
  { intros k K. rewrite (nth_map_in Rabs s2 k 0 0) by lia. rewrite (span_tail _ 0 a (j + 81) (eq_trans (KL _ _ _) LS1) D1 s2 E2) by lia. rewrite Reqb_t by reflexivity. pose proof tiny_pos. rewrite Rabs_pos_eq by lra. ring. }
  intros k K. rewrite (smooth_tail (map Rabs s2) 51 0 tiny (j + 92) ltac:(now rewrite map_length) ltac:(lia) S2) by lia. ring.
Qed.
(** Curved below, straight for 142 samples before 1.7 gap voltages: all samples above but the
    last are used. *)
Lemma auto_found y a b j d1 d2 P : length y = length x -> 0 < a -> (forall i, (j <= i < length x)%nat -> nth i y 0 = a * nth i x 0 + b) -> INR (j + 142) * st <= 17 / 10 -> derivatives smooth x y d1 d2 ->
  (exists i, (i < length x)%nat /\ / 10 ^ 8 < Rabs (nth i d2 0)) -> found_samples x y d1 d2 P -> (forall k, In (nth k x 0, nth k y 0) P -> (k < length x)%nat -> 17 / 10 < nth k x 0) /\
  (17 / 10 < nth (length x - 6) x 0 -> forall k, (k < length x - 1)%nat -> 17 / 10 < nth k x 0 -> In (nth k x 0, nth k y 0) P).
Proof.
  intros L A H J DE [i0 [I0 TOP]] FO. split.
  { intros k I K. apply (found_above x y d1 d2 P _ (eq_sym L) FO) in I. apply I. }
  destruct (line_slopes y a b j d1 d2 L ltac:(lra) H DE) as [D1 D2]. assert (LD2 : length d2 = length x). { apply slopes_spec in DE. apply (slopes_lengths smooth KL) in DE; [|assumption]. apply DE. }
  assert (AB : forall k, (k < length x)%nat -> 17 / 10 < nth k x 0 -> (j + 142 <= k)%nat). { intros k K B. rewrite GR in B by assumption. apply Nat.lt_le_incl. apply INR_lt. apply Rmult_lt_reg_r with st; [assumption|lra]. }
  assert (FT : forall k, flat x d2 k <-> (k < length x)%nat /\ 17 / 10 < nth k x 0).
  { intros k. split; [intros [K [B _]]; auto|]. intros [K B]. split; [assumption|]. split; [assumption|]. exists i0. split; [lia|]. rewrite D2 by (specialize (AB k K B); lia). pose proof tiny_pos. rewrite Rabs_pos_eq by lra. unfold tiny in *.
    replace (/ 10 ^ 10) with (/ 10 ^ 8 / 100) by (field). apply Rmult_lt_compat_r; [lra|assumption]. }
  destruct FO as [m [ks [[fs [NF [IF [s [PS [_ EM]]]]]] [NK [IK EP]]]]]. intros B6.
  assert (M : m = a).
  { assert (IN : In (length x - 6)%nat fs) by (apply IF, FT; split; [lia|assumption]). assert (LE : (0 < length s)%nat) by (rewrite (Permutation_length PS), map_length; destruct fs; [destruct IN|cbn; lia]).
    assert (C : forall k, (k < length s)%nat -> nth k s 0 = a).
    { intros k K. assert (I : In (nth k s 0) s) by now apply nth_In. apply (Permutation_in _ PS) in I. apply in_map_iff in I. destruct I as [q [<- Q]]. apply IF, FT in Q. destruct Q as [Q B]. specialize (AB q Q B). apply D1. lia. }
    rewrite EM, !C; [field|apply Nat.div_lt; lia|]. apply Nat.le_lt_trans with (length s - 1)%nat; [apply Nat.div_le_upper_bound; lia|lia]. }
  assert (SI : forall k, similar x d1 d2 m k <-> (k < length x)%nat /\ 17 / 10 < nth k x 0).
  { intros k. unfold similar. rewrite FT. split; [tauto|]. intros [K B]. split; [tauto|]. specialize (AB k K B). rewrite D1 by lia. lra. }
  assert (IK' : forall k, (k < length x - 1)%nat -> 17 / 10 < nth k x 0 -> In k ks).
  { intros k K B. apply IK. rewrite !SI. pose proof (grid_rising k (S k) ltac:(lia) ltac:(lia)). repeat split; try lia; lra. }
  assert (L5 : (5 <= length ks)%nat).
  { change 5%nat with (length (map (fun i => length x - 6 + i)%nat (seq 0 5))). apply NoDup_incl_length.
    - apply FinFun.Injective_map_NoDup; [intros u v UV; lia|apply seq_NoDup].
    - intros k K. apply in_map_iff in K. destruct K as [i [<- I]]. apply in_seq in I. apply IK'; [lia|]. destruct i as [|i]; [rewrite Nat.add_0_r; assumption|]. pose proof (grid_rising (length x - 6)%nat (length x - 6 + S i)%nat ltac:(lia) ltac:(lia)). lra. }
  intros k K B. rewrite EP. destruct (Nat.ltb_spec (length ks) 5); [lia|]. apply in_map_iff. exists k. split; [reflexivity|]. now apply IK'.
Qed.
(** A line everywhere: no sample is found. *)
Lemma straight_none y a b d1 d2 P : length y = length x -> a <> 0 -> (forall i, (i < length x)%nat -> nth i y 0 = a * nth i x 0 + b) -> derivatives smooth x y d1 d2 -> found_samples x y d1 d2 P ->
  P = filter (fun p => if Rlt_dec 2 (fst p) then true else false) (List.combine x y).
Proof.
  intros L A H [s1 [s2 [E1 [-> [E2 ->]]]]].
  assert (AL : forall l w c d, length l = length x -> (1 <= w <= 51)%nat -> (forall i, (i < length x)%nat -> nth i l 0 = c * nth i x 0 + d) -> forall k, (k < length x)%nat -> nth k (smooth l (Z.of_nat w) 3%Z) 0 = c * nth k x 0 + d).
  { intros l w c d LL W HL k K. rewrite GR by lia. transitivity ((c * st) * INR k + d); [|ring]. apply FL; [lia|lia|]. intros i I _. rewrite HL by lia. rewrite GR by lia. ring. }
  assert (SP : forall u s c d, length u = length x -> (forall i, (i < length x)%nat -> nth i u 0 = c * nth i x 0 + d) -> slope_span_n x u 11 true = Ok (map FV s) -> length s = length x /\ forall k, (k < length x)%nat -> nth k s 0 = if Reqb c 0 then tiny else c).
  { intros u s c d LU HU E. split; [apply span11_length in E; [|assumption]; rewrite map_length in E; apply E|]. intros k K. destruct (span11 x u LU grid_nodup ltac:(lia)) as [s' [E' [LS F]]]. rewrite E in E'. apply (f_equal (fun r => match r with Ok l => l | Err _ => [] end)) in E'. apply (f_equal (map (fun a => match a with FV r => r | _ => 0 end))) in E'. rewrite !map_map, !map_id in E'. subst s'.
    destruct (F k ltac:(lia)) as [p [q [PQ [KP R]]]]. cbv zeta in R. rewrite R. rewrite !HU by lia. pose proof (grid_rising p q ltac:(lia) ltac:(lia)).
    replace ((c * nth q x 0 + d - (c * nth p x 0 + d)) / (nth q x 0 - nth p x 0)) with c by (field; lra). reflexivity. }
  pose proof (AL y 21%nat a b L ltac:(lia) H) as Y. destruct (SP _ s1 a b (eq_trans (KL _ _ _) L) Y E1) as [LS1 S1]. rewrite Reqb_f in S1 by assumption.
  pose proof (AL s1 51%nat 0 a LS1 ltac:(lia) ltac:(intros i I; rewrite S1 by assumption; ring)) as D1. change (Z.of_nat 51) with 51%Z in D1. destruct (SP _ s2 0 a (eq_trans (KL _ _ _) LS1) D1 E2) as [LS2 S2]. rewrite Reqb_t in S2 by reflexivity. pose proof tiny_pos as TP.
  pose proof (AL (map Rabs s2) 51%nat 0 tiny ltac:(now rewrite map_length) ltac:(lia) ltac:(intros i I; rewrite (nth_map_in Rabs s2 i 0 0) by lia; rewrite S2, Rabs_pos_eq by (assumption || lra); ring)) as D2. change (Z.of_nat 51) with 51%Z in D2.
  intros [m [ks [_ [NK [IK ->]]]]]. destruct ks as [|k ks]; [reflexivity|]. exfalso. destruct (proj1 (IK k) (or_introl eq_refl)) as [[[K [_ [i [I F]]]] _] _]. rewrite KL, map_length, LS2 in I. rewrite !D2 in F by assumption. rewrite !Rmult_0_l, !Rplus_0_l, Rabs_pos_eq in F by lra. lra.
Qed.
End Grid.
(** A straight line that ends below 2 gap voltages cannot be calibrated. *)
Lemma straight_fails s m dc q v p0 a b : sorting s -> load_if s m dc q = Ok (v, p0) -> q_vshot q = None -> 0 < dc_vgap dc -> 0 < q_vmax q <= 2 * dc_vgap dc -> (51 <= q_npts q)%nat -> a <> 0 ->
  (forall k, (k < q_npts q)%nat -> nth k p0 0 = a * nth k v 0 + b) -> dcif_data smooth s m dc q = Err ValueError.
Proof.
  intros S E VS G [VM V2] NP A H. unfold dcif_data. rewrite E. cbn [bind]. rewrite VS. apply load_grid in E; [|assumption]. destruct E as [_ [EV LP]]. assert (LV : length v = q_npts q) by (rewrite EV; apply linspace_length).
  assert (N1 : 0 < INR (q_npts q - 1)) by (apply lt_0_INR; lia). set (st := q_vmax q / dc_vgap dc / INR (q_npts q - 1)).
  assert (ST : 0 < st) by (unfold st; repeat apply Rdiv_lt_0_compat; assumption).
  assert (GR : forall k, (k < length v)%nat -> nth k v 0 = INR k * st) by (intros k K; rewrite EV, linspace_nth by congruence; unfold st, Rdiv; ring).
  rewrite <- LV in *. assert (ND := grid_nodup v st ST GR NP).
  destruct (slopes_exist v p0 LP ND ltac:(lia)) as [d1 [d2 [top [SL [L1 [L2 T]]]]]]. rewrite (auto_noise smooth KL) by congruence. rewrite SL. cbn [bind fst snd]. rewrite T. cbn [bind].
  rewrite (straight_none v st ST GR NP p0 a b d1 d2 _ LP A H (proj1 (slopes_spec smooth v p0 d1 d2) SL) (found v p0 d1 d2 top L2 T)).
  replace (filter _ _) with (@nil (R * R)); [reflexivity|]. symmetry. rewrite combine_tab by congruence. destruct (filter _ _) as [|p l] eqn:F; [reflexivity|]. exfalso. assert (I : In p (p :: l)) by now left. rewrite <- F in I. apply filter_In in I. destruct I as [I B]. apply in_map_iff in I. destruct I as [k [<- K]]. apply in_seq in K. cbn [fst] in B. destruct (Rlt_dec 2 (nth k v 0)) as [C|]; [|discriminate].
  rewrite GR in C by lia. assert (INR k <= INR (length v - 1)) by (apply le_INR; lia). assert (INR k * st <= INR (length v - 1) * st) by (apply Rmult_le_compat_r; lra).
  assert (EQ : INR (length v - 1) * st * dc_vgap dc = q_vmax q) by (unfold st; rewrite <- LV; field; split; lra). nra.
Qed.
End Oracle.
