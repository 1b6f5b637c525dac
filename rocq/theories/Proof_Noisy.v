(** The circuit of a junction with a dominant first photon step, from inexact currents. *)
From Coq Require Import List ZArith Lia Bool Arith Reals Lra Psatz.
From Coquelicot Require Import Coquelicot.
From Verif Require Import Base Sums Bessel Float NumPy Model_CleanData Model_QtCurrent Spec_QtCurrent Spec_Power Spec_QtApi Proof_QtCurrent Proof_QtWit Proof_Bessel Proof_BesselVal Proof_Weights Proof_Power Proof_Power3 Proof_JacobiAnger
  Proof_Known Model_Tucker Model_ExpData Spec_ExpData Spec_Known Proof_Recover2 Proof_Recover3 Proof_ExpCases Spec_Rise Proof_Rise Proof_Rise2 Spec_Noisy.
Import ListNotations.
Open Scope list_scope.
Open Scope R_scope.
Local Notation length := List.length.

(** ** The nearest point of a grid *)
Lemma nearest_int y n : 0 <= y <= INR n -> exists i, (i <= n)%nat /\ Rabs (INR i - y) <= 1 / 2.
Proof.
  intros [Y0 Y1]. set (z := Int_part (y + 1 / 2)). assert (H := base_Int_part (y + 1 / 2)). fold z in H. destruct H as [H1 H2].
  assert (Z0 : (0 <= z)%Z). { assert (-1 < z)%Z; [|lia]. apply lt_IZR. lra. }
  destruct (Z_le_gt_dec z (Z.of_nat n)) as [L | G].
  - exists (Z.to_nat z). split; [lia|]. rewrite INR_IZR_INZ, Z2Nat.id by exact Z0. apply Rabs_le. lra.
  - exists n. split; [lia|]. assert (IZR (Z.of_nat n) + 1 <= IZR z) by (rewrite <- plus_IZR; apply IZR_le; lia). rewrite <- INR_IZR_INZ in H. apply Rabs_le. lra.
Qed.
Lemma nearest_step lo hi n x : (0 < n)%nat -> lo <= x <= hi -> exists i, (i <= n)%nat /\ Rabs (lo + INR i * ((hi - lo) / INR n) - x) <= (hi - lo) / (2 * INR n).
Proof.
  intros N X. assert (NP : 0 < INR n) by (apply lt_0_INR; exact N). destruct (Req_dec lo hi) as [E | E].
  - exists 0%nat. split; [lia|]. subst hi. replace (lo + INR 0 * ((lo - lo) / INR n) - x) with 0 by (cbn [INR]; lra). rewrite Rabs_R0. replace ((lo - lo) / (2 * INR n)) with 0 by (field; lra). lra.
  - set (w := (hi - lo) / INR n). assert (W : 0 < w) by (unfold w; apply Rdiv_lt_0_compat; lra). destruct (nearest_int ((x - lo) / w) n) as (i & I & H).
    + split; [apply Rmult_le_pos; [lra|left; now apply Rinv_0_lt_compat]|]. apply Rle_div_l; [exact W|]. unfold w. replace (INR n * ((hi - lo) / INR n)) with (hi - lo) by (field; lra). lra.
    + exists i. split; [exact I|]. replace (lo + INR i * w - x) with ((INR i - (x - lo) / w) * w) by (field; lra). rewrite Rabs_mult, (Rabs_pos_eq w) by lra. replace ((hi - lo) / (2 * INR n)) with (1 / 2 * w) by (unfold w; field; lra). apply Rmult_le_compat_r; lra.
Qed.
Lemma INR_100 : INR 100 = 100. Proof. rewrite INR_IZR_INZ. f_equal. Qed.
Lemma INR_200 : INR 200 = 200. Proof. rewrite INR_IZR_INZ. f_equal. Qed.
Theorem nearest remb xemb zs : in_range remb xemb zs -> exists i j, (i <= 100)%nat /\ (j <= 200)%nat /\ Cmod (Cminus (grid_point remb xemb i j) zs) <= half_cell remb xemb.
Proof.
  intros [HR HX]. destruct (nearest_step _ _ 100 _ ltac:(lia) HR) as (i & I & DI). destruct (nearest_step _ _ 200 _ ltac:(lia) HX) as (j & K & DJ). rewrite INR_100 in DI. rewrite INR_200 in DJ. exists i, j. split; [exact I|]. split; [exact K|].
  eapply Rle_trans; [apply Cmod_parts|]. unfold half_cell. unfold grid_point, Cminus, Cplus, Copp, Re, Im in *. cbn [fst snd] in *. 
  replace (2 * 100) with 200 in DI by ring. replace (2 * 200) with 400 in DJ by ring. apply Rplus_le_compat; assumption.
Qed.

(** ** One sample *)
Lemma residual_near vph (zg w : C) a N Vs T : 0 < vph -> 0 < a <= T -> w <> RtoC 0 -> Rabs (Cmod (Cplus (RtoC (a * vph)) (Cmult zg w)) - Vs) <= N -> N < Vs ->
  let s := (RtoC (a * vph), Cdiv (RtoC (a * vph)) w) in
  (Cmod (fst s) - Vs * Cmod (Cdiv (snd s) (Cplus zg (snd s)))) ^ 2 <= (T * vph * N / (Vs - N)) ^ 2.
Proof.
  intros P A W LF B. cbn [fst snd]. set (f := Cplus (RtoC (a * vph)) (Cmult zg w)) in *.
  apply Rabs_le_between in LF. assert (FP : 0 < Cmod f) by lra. assert (AV : 0 < a * vph) by nra.
  assert (FN : f <> RtoC 0) by (intros E; rewrite E, Cmod_0 in FP; lra).
  rewrite divided by (assumption || lra). fold f. rewrite Cmod_div, Cmod_R, Rabs_pos_eq by (assumption || lra).
  replace (a * vph - Vs * (a * vph / Cmod f)) with (a * vph * (Cmod f - Vs) / Cmod f) by (field; lra).
  assert (KD : 0 <= N) by lra. apply pow_maj_Rabs. unfold Rdiv. rewrite !Rabs_mult, (Rabs_pos_eq (/ Cmod f)) by (left; now apply Rinv_0_lt_compat). rewrite (Rabs_pos_eq a), (Rabs_pos_eq vph) by lra.
  apply Rmult_le_compat; [apply Rmult_le_pos; [lra|apply Rabs_pos]|left; now apply Rinv_0_lt_compat| |apply Rinv_le_contravar; lra].
  apply Rmult_le_compat; [lra|apply Rabs_pos|nra|apply Rabs_le; lra].
Qed.
Lemma balance_near idc ikk vph b V M (zs zg : C) h D T a t Vs : 0 < vph -> bounded_steps idc ikk vph b M V -> Cmod (Cminus zg zs) <= h -> Rabs (a - t) <= D -> 0 < a <= T ->
  driven_to idc ikk vph b zs Vs V t ->
  Rabs (Cmod (Cplus (RtoC (a * vph)) (Cmult zg (rf_current idc ikk vph b V a))) - Vs) <= (vph + 6 * M * Cmod zs) * D + 6 * M * T * h.
Proof.
  intros P BS H DA A DR. rewrite <- DR. eapply Rle_trans; [apply Cmod_tri_inv|]. set (w := rf_current idc ikk vph b V a). set (w0 := rf_current idc ikk vph b V t).
  assert (M0 : 0 <= M). { eapply Rle_trans; [apply Rabs_pos|]. apply (proj1 (BS 0%Z ltac:(lia))). }
  assert (E : Cminus (Cplus (RtoC (a * vph)) (Cmult zg w)) (Cplus (RtoC (t * vph)) (Cmult zs w0)) = Cplus (Cplus (RtoC ((a - t) * vph)) (Cmult zs (Cminus w w0))) (Cmult (Cminus zg zs) w)).
  { rewrite !RtoC_mult, RtoC_minus. ring. }
  rewrite E. eapply Rle_trans; [apply Cmod_triangle|]. apply Rplus_le_compat.
  - eapply Rle_trans; [apply Cmod_triangle|]. rewrite Cmod_R, Cmod_mult, Rabs_mult, (Rabs_pos_eq vph) by lra.
    assert (S1 := rf_smooth idc ikk vph b V M a t BS). fold w w0 in S1. assert (S2 : 6 * M * Rabs (a - t) <= 6 * M * D) by (apply Rmult_le_compat_l; lra). assert (Z := Cmod_ge_0 zs). nra.
  - rewrite Cmod_mult. assert (S1 := rf_smooth idc ikk vph b V M a 0 BS). rewrite (rf_is idc ikk vph b V 0), ac_undriven in S1 by (intros [|n] K; [lia|apply besselJ_S_0]). fold w in S1. replace (Cminus w (RtoC 0)) with w in S1 by ring. rewrite Rminus_0_r, (Rabs_pos_eq a) in S1 by lra.
    assert (S2 : Cmod w <= 6 * M * T) by (eapply Rle_trans; [exact S1|]; apply Rmult_le_compat_l; lra). rewrite (Rmult_comm (6 * M * T)). apply Rmult_le_compat; [apply Cmod_ge_0|apply Cmod_ge_0|exact H|exact S2].
Qed.

(** ** Drive levels from inexact currents *)
Lemma level_near idc vph b v i A d g a0 a : (1 <= b)%nat -> first_step idc vph b v -> 0 < A <= 3 / 2 -> 0 < g <= gain idc vph v 0 -> 0 < a0 <= a -> let D := level_error A d g a0 in
  D < a <= A - D -> Rabs (i - dc_current idc vph b v a) <= d -> idc v <= i <= dc_current idc vph b v A /\
  forall s, 0 <= s -> gain idc vph v 0 / 14 * Rabs (s ^ 2 - a ^ 2) <= Rabs (i - dc_current idc vph b v a) -> Rabs (s - a) <= 14 * d / (g * a0).
Proof.
  intros B F HA G A0 D HD HI. assert (DP : 0 <= d) by (eapply Rle_trans; [apply Rabs_pos|exact HI]). assert (GA : 0 < g * a0) by (apply Rmult_lt_0_compat; lra). set (x := 14 * d / (g * a0)).
  assert (X : x * (g * a0) = 14 * d) by (unfold x; field; lra). assert (X0 : 0 <= x) by (unfold x; apply Rmult_le_pos; [lra|left; now apply Rinv_0_lt_compat]).
  assert (R0 : 0 < A / 2 ^ 16) by (apply Rdiv_lt_0_compat; [lra|apply pow_lt; lra]). assert (DX : x < D) by (unfold D, level_error; fold x; lra). clearbody x D.
  split.
  - assert (L := steep idc vph v b B F 0 a ltac:(lra) ltac:(lra) ltac:(lra)). assert (U := steep idc vph v b B F a A ltac:(lra) ltac:(lra) ltac:(lra)). unfold cur in L, U. rewrite <- !dc_is in L, U. rewrite (dc_is idc vph b v 0) in L. fold (cur idc vph v b 0) in L. rewrite cur_at_0 in L.
    apply Rabs_le_between in HI. set (G0 := gain idc vph v 0) in *.
    assert (L' : d <= G0 / 14 * (a ^ 2 - 0 ^ 2)). { assert (x * (g * a0) <= a * (G0 * a)); [|nra]. apply Rmult_le_compat; try lra; try nra. }
    assert (U' : d <= G0 / 14 * (A ^ 2 - a ^ 2)). { replace (A ^ 2 - a ^ 2) with ((A - a) * (A + a)) by ring. assert (x * (g * a0) <= (A - a) * (G0 * (A + a))); [|nra]. apply Rmult_le_compat; try lra; try nra. }
    lra.
  - intros s S0 H. apply Rle_trans with (r3 := d) in H; [|exact HI]. replace (s ^ 2 - a ^ 2) with ((s - a) * (s + a)) in H by ring. rewrite Rabs_mult, (Rabs_pos_eq (s + a)) in H by lra. set (G0 := gain idc vph v 0) in *. set (y := Rabs (s - a)) in *. assert (Y : 0 <= y) by apply Rabs_pos.
    assert (y * (g * a0) <= y * (G0 * (s + a))) by (apply Rmult_le_compat_l; [exact Y|]; apply Rmult_le_compat; lra).
    apply Rmult_le_reg_r with (g * a0); [exact GA|]. rewrite X. nra.
Qed.
Lemma choose (Q : R * R -> R -> Prop) B : (forall p, In p B -> exists a, Q p a) -> exists ts, length ts = length B /\ forall k, (k < length B)%nat -> Q (nth k B (0, 0)) (nth k ts 0).
Proof.
  induction B as [|p B IH]; intros H; [exists []; split; [reflexivity|cbn; lia]|]. destruct (H p (or_introl eq_refl)) as [a HA]. destruct IH as (ts & L & N); [intros; apply H; now right|]. exists (a :: ts). split; [cbn; lia|]. intros [|k] K; [exact HA|]. apply N. cbn in K. lia.
Qed.
Theorem noisy_at idc ikk voltage current vph q lo hi zs Vs M d g a0 ts :
  length voltage = length current -> range_used q lo hi -> r_zemb q = None ->
  0 < vph -> 0 < r_alpha_max q <= 3 / 2 -> (1 <= r_num_b q)%nat -> 0 < fst (r_remb q) -> in_range (r_remb q) (r_xemb q) zs -> (forall x y, x <= y -> idc x <= idc y) -> 0 < g -> 0 < a0 ->
  let B := step_samples vph lo hi voltage current in
  let A := r_alpha_max q in
  let D := level_error A d g a0 in
  let K := (vph + 6 * M * Cmod zs) * D + 6 * M * A * half_cell (r_remb q) (r_xemb q) in
  let e := A * vph * K / (Vs - K) in
  B <> [] -> K < Vs -> length ts = length B -> (forall k, (k < length B)%nat -> sample_about idc ikk vph (r_num_b q) zs Vs M A D d g a0 (fst (nth k B (0, 0))) (snd (nth k B (0, 0))) (nth k ts 0)) ->
  exists r al V, recover_zemb besselJ idc ikk voltage current vph q = Ok r /\ length al = length B /\
    (forall k, (k < length B)%nat -> 0 < nth k al 0 <= A /\ Rabs (nth k al 0 - nth k ts 0) <= D) /\ (exists i j, (i <= 100)%nat /\ (j <= 200)%nat /\ rec_zt r = grid_point (r_remb q) (r_xemb q) i j) /\
    rec_vt r = FV V /\ mismatch (map (fun p => rf_sample idc ikk vph (r_num_b q) (fst (fst p)) (snd p)) (List.combine B al)) (rec_zt r) V <= e ^ 2 /\
    (e ^ 2 <= 7 / 10 ^ 7 -> rec_fit r = true).
Proof.
  intros L RU ZN P AM NB R1 IR MI G A0 B A D K e BN KV LT0 HS. assert (R2 : fst (r_remb q) <= snd (r_remb q)) by (destruct IR as [[? ?] _]; lra).
  destruct (recover_total besselJ idc ikk voltage current vph q lo hi L RU) as [r H]; [exact BN| |].
  { fold B. intros [v i] Hp. cbn [fst]. destruct (In_nth _ _ (0, 0) Hp) as (k & KL & EK). destruct (HS k KL) as (F & _). fold B in EK. rewrite EK in F. apply first_rises; [exact NB|exact F|exact AM]. }
  destruct (nearest _ _ _ IR) as (i0 & j0 & I0 & J0 & NEAR).
  destruct (recover_best _ _ _ _ _ _ _ _ lo hi L RU ZN H) as (al & EA & GR). cbv zeta in GR. fold B in EA, GR.
  assert (LM : length (map fst B) = length (map snd B)) by (rewrite !map_length; reflexivity). destruct (alpha_nonneg _ _ _ _ _ _ _ _ LM EA) as [LA _]. rewrite map_length in LA.
  assert (FK : forall k, (k < length B)%nat -> let a := nth k ts 0 in (D < a <= A - D /\ driven_to idc ikk vph (r_num_b q) zs Vs (fst (nth k B (0, 0))) a /\ Rabs (nth k al 0 - a) <= D) /\
    idc (fst (nth k B (0, 0)) - vph) < idc (fst (nth k B (0, 0)) + vph) /\ bounded_steps idc ikk vph (r_num_b q) M (fst (nth k B (0, 0)))).
  { intros k KL. destruct (HS k KL) as (F & GG & BS & HA0 & HA & HI & DR). destruct (nth k B (0, 0)) as [v i] eqn:EN. cbn [fst snd] in *. set (a := nth k ts 0) in *. cbv zeta. split; [|split; [exact (first_slope _ _ _ _ P MI F)|exact BS]]. split; [exact HA|]. split; [exact DR|].
    assert (EV : nth k (map fst B) 0 = v) by (rewrite (nth_map_any fst B k (0, 0)) by assumption; now rewrite EN). assert (EI : nth k (map snd B) 0 = i) by (rewrite (nth_map_any snd B k (0, 0)) by assumption; now rewrite EN).
    destruct (level_near idc vph (r_num_b q) v i A d g a0 a NB F AM (conj G GG) (conj A0 HA0) HA HI) as [RG LN].
    assert (FN := first_noise idc (map fst B) (map snd B) vph A (r_num_b q) al k LM EA). rewrite map_length, EV, EI in FN. destruct (FN KL NB F AM RG) as (s & S0 & _ & S1 & S2).
    assert (D0 : 0 < D) . { assert (0 <= d) by (eapply Rle_trans; [apply Rabs_pos|exact HI]). unfold D, level_error. assert (0 < A / 2 ^ 16) by (apply Rdiv_lt_0_compat; [apply AM|apply pow_lt; lra]). assert (0 <= 14 * d / (g * a0)); [|lra]. apply Rmult_le_pos; [lra|]. left. apply Rinv_0_lt_compat, Rmult_lt_0_compat; assumption. }
    assert (LS := LN s (proj1 S0) (S2 a ltac:(unfold A in *; lra))). unfold D, level_error. replace (nth k al 0 - a) with ((nth k al 0 - s) + (s - a)) by ring. eapply Rle_trans; [apply Rabs_triang|]. apply Rplus_le_compat; [exact S1|exact LS]. }
  assert (FD : forall p, In p (List.combine B al) -> exists a, 0 < snd p <= A /\ Rabs (snd p - a) <= D /\ driven_to idc ikk vph (r_num_b q) zs Vs (fst (fst p)) a /\ bounded_steps idc ikk vph (r_num_b q) M (fst (fst p)) /\
    0 < Re (ac_current besselJ idc ikk vph (snd p) (r_num_b q) (fst (fst p)))).
  { intros p IP. destruct (in_combine_nth B al (0, 0) 0 p (eq_sym LA) IP) as (k & KL & ->). cbn [fst snd]. destruct (FK k KL) as ((HA & DR & CV) & LT & BS). exists (nth k ts 0). assert (CV' := CV). apply Rabs_le_between in CV'. assert (RNG : 0 < nth k al 0 <= A) by lra.
    split; [assumption|]. split; [assumption|]. split; [assumption|]. split; [assumption|]. apply absorbs; try assumption. unfold A in *. lra. }
  destruct GR as (i & j & V & GI & GJ & EZ & EV & MIN & FIT).
  - intros p IP. destruct (FD p IP) as (a & _ & _ & _ & _ & W). now apply nz_re.
  - intros i j _ _. split.
    + intros s IS. apply in_map_iff in IS as (p & <- & IP). destruct (FD p IP) as (a & A1 & _ & _ & _ & W). apply nz_re. unfold junction_sample. cbn [snd]. assert (RG := grid_resistance q i j R1 R2). assert (RQ := re_quotient (snd p * vph) _ ltac:(nra) W).
      set (x := grid_point _ _ _ _) in *. set (y := Cdiv _ _) in *. unfold Re, Cplus in *. cbn [fst]. lra.
    + destruct B as [|b0 B']; [now contradiction BN|]. destruct al as [|a1 al']; [discriminate LA|]. exists (junction_sample besselJ idc ikk vph (r_num_b q) (fst b0) a1). cbn [List.combine map]. split; [now left|].
      destruct (FD (b0, a1) ltac:(now left)) as (a & A1 & _ & _ & _ & W). cbn [fst snd] in *. unfold junction_sample. cbn [snd]. apply nz_re, re_quotient; [nra|assumption].
  - assert (SA : map (fun p => rf_sample idc ikk vph (r_num_b q) (fst (fst p)) (snd p)) (List.combine B al) = map (fun p => junction_sample besselJ idc ikk vph (r_num_b q) (fst (fst p)) (snd p)) (List.combine B al)).
    { apply map_ext. intros p. unfold rf_sample, junction_sample. now rewrite rf_is. }
    exists r, al, V. split; [exact H|]. split; [assumption|]. split. { intros k KL. destruct (FK k KL) as ((HA & _ & NR) & _). split; [|exact NR]. apply Rabs_le_between in NR. lra. } split. { exists i, j. repeat split; assumption. } split; [assumption|]. rewrite SA.
    assert (BD : mismatch (map (fun p => junction_sample besselJ idc ikk vph (r_num_b q) (fst (fst p)) (snd p)) (List.combine B al)) (rec_zt r) V <= e ^ 2).
    { eapply Rle_trans; [apply (MIN i0 j0 Vs I0 J0)|]. apply mean_le.
      - destruct B as [|b0 B']; [now contradiction BN|]. destruct al as [|a1 al']; [discriminate LA|]. discriminate.
      - intros s IS. apply in_map_iff in IS as (p & <- & IP). destruct (FD p IP) as (a & A1 & NR & DR & BS & W). unfold junction_sample.
        assert (BL := balance_near idc ikk vph (r_num_b q) (fst (fst p)) M zs _ _ D A (snd p) a Vs P BS NEAR NR A1 DR). rewrite rf_is in BL.
        apply (residual_near vph _ _ (snd p) K Vs A P A1); [now apply nz_re|exact BL|exact KV]. }
    split; [exact BD|]. intros EE. apply FIT. lra.
Qed.
Theorem noisy idc ikk voltage current vph q lo hi zs Vs M d g a0 :
  length voltage = length current -> range_used q lo hi -> r_zemb q = None ->
  0 < vph -> 0 < r_alpha_max q <= 3 / 2 -> (1 <= r_num_b q)%nat -> 0 < fst (r_remb q) -> in_range (r_remb q) (r_xemb q) zs -> (forall x y, x <= y -> idc x <= idc y) -> 0 < g -> 0 < a0 ->
  let B := step_samples vph lo hi voltage current in
  let A := r_alpha_max q in
  let D := level_error A d g a0 in
  let K := (vph + 6 * M * Cmod zs) * D + 6 * M * A * half_cell (r_remb q) (r_xemb q) in
  let e := A * vph * K / (Vs - K) in
  B <> [] -> K < Vs -> pumped_about idc ikk vph (r_num_b q) B zs Vs M A D d g a0 ->
  exists r al V, recover_zemb besselJ idc ikk voltage current vph q = Ok r /\ length al = length B /\
    (forall k, (k < length B)%nat -> exists a, Rabs (nth k al 0 - a) <= D /\ driven_to idc ikk vph (r_num_b q) zs Vs (fst (nth k B (0, 0))) a) /\
    rec_vt r = FV V /\ mismatch (map (fun p => rf_sample idc ikk vph (r_num_b q) (fst (fst p)) (snd p)) (List.combine B al)) (rec_zt r) V <= e ^ 2 /\
    (e ^ 2 <= 7 / 10 ^ 7 -> rec_fit r = true).
Proof.
  intros L RU ZN P AM NB R1 IR MI G A0 B A D K e BN KV HB.
  destruct (choose (fun p a => sample_about idc ikk vph (r_num_b q) zs Vs M A D d g a0 (fst p) (snd p) a) B) as (ts & LT & HS).
  { intros [v i] IP. exact (HB v i IP). }
  destruct (noisy_at idc ikk voltage current vph q lo hi zs Vs M d g a0 ts L RU ZN P AM NB R1 IR MI G A0 BN KV LT HS) as (r & al & V & E & LA & HA & _ & H). exists r, al, V. split; [exact E|]. split; [exact LA|]. split; [|exact H].
  intros k KL. exists (nth k ts 0). split; [apply (HA k KL)|apply (HS k KL)].
Qed.
