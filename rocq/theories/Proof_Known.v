(** The recovery of a circuit that has produced the data. *)
From Coq Require Import List ZArith Lia Bool Arith Reals Lra Psatz.
From Coquelicot Require Import Coquelicot.
From Verif Require Import Base Sums Bessel Float NumPy Model_CleanData Model_QtCurrent Spec_QtCurrent Spec_Power Proof_QtCurrent Proof_QtWit Proof_Bessel Proof_Bessel2 Proof_BesselVal Proof_Weights Proof_Power Proof_Power2 Proof_Power3 Proof_JacobiAnger
  Model_Tucker Model_ExpData Spec_ExpData Spec_Known Proof_Recover Proof_Recover2 Proof_Recover3.
Import ListNotations.
Open Scope R_scope.
Local Notation length := List.length.
Local Notation JZ := (besselZ besselJ).

(** ** The alternating current depends smoothly on the drive level *)
Lemma rsum_sub {A} (l l' : list A) g : NoDup l -> incl l l' -> (forall x, 0 <= g x) -> rsum l g <= rsum l' g.
Proof.
  intros N. revert l'. induction N as [|x l NI N IH]; intros l' I G.
  - now apply rsum_nonneg.
  - destruct (in_split x l') as (a & b & ->); [apply I; now left|]. rewrite rsum_app. cbn [rsum]. assert (H : rsum l g <= rsum (a ++ b) g).
    { apply IH; [|exact G]. intros y Y. assert (K := I y (or_intror Y)). apply in_app_or in K. apply in_or_app. destruct K as [K|[K|K]]; auto. subst y. contradiction. }
    rewrite rsum_app in H. lra.
Qed.
Lemma rsum_shift b c (g : Z -> R) : rsum (map (fun n => (n + c)%Z) (sym b)) g = rsum (sym b) (fun n => g (n + c)%Z).
Proof. induction (sym b) as [|n l IH]; [reflexivity|]. cbn [map rsum]. now rewrite IH. Qed.
Lemma shifted_squares b c x : rsum (sym b) (fun n => JZ (n + c) x ^ 2) <= 1.
Proof.
  rewrite <- (rsum_shift b c (fun n => JZ n x ^ 2)). apply Rle_trans with (rsum (sym (b + Z.abs_nat c)) (fun n => JZ n x ^ 2)).
  - apply rsum_sub; [|intros y Y|intros; apply pow2_ge_0].
    + apply FinFun.Injective_map_NoDup; [intros u v; lia|apply sym_NoDup].
    + apply in_map_iff in Y as (n & <- & Hn). apply in_sym in Hn. apply in_sym. lia.
  - rewrite squaresZ. apply squares_le_1.
Qed.
Lemma derive_rsum {A} (l : list A) (f : A -> R -> R) (d : A -> R) x : (forall n, is_derive (f n) x (d n)) -> is_derive (fun x => rsum l (fun n => f n x)) x (rsum l d).
Proof.
  intros D. induction l as [|n l IH]; cbn [rsum]; [apply @is_derive_const|]. apply @is_derive_plus; [apply D|exact IH].
Qed.
Section Smooth.
Variables (i : Z -> R) (M : R) (b : nat).
Hypothesis HM : forall n, In n (sym b) -> Rabs (i n) <= M.
Lemma M_pos : 0 <= M.
Proof. eapply Rle_trans; [apply Rabs_pos|apply (HM 0%Z)]. apply in_sym. lia. Qed.
Definition re_part (x : R) : R := rsum (sym b) (fun n => JZ n x * (JZ (n - 1) x + JZ (n + 1) x) * i n).
Definition im_part (x : R) : R := rsum (sym b) (fun n => JZ n x * (JZ (n - 1) x - JZ (n + 1) x) * i n).
Lemma re_derive x : is_derive re_part x (rsum (sym b) (fun n => ((JZ (n + -1) x ^ 2 - JZ (n + 1) x ^ 2) / 2 + JZ (n + 0) x * (JZ (n + -2) x - JZ (n + 2) x) / 2) * i n)).
Proof.
  apply derive_rsum. intros n. evar_last.
  { apply (is_derive_mult (fun x => JZ n x * (JZ (n - 1) x + JZ (n + 1) x)) (fun _ => i n) x); [|apply @is_derive_const|intros; apply Rmult_comm].
    apply (is_derive_mult (JZ n) (fun x => JZ (n - 1) x + JZ (n + 1) x) x); [apply JZ_derive|apply @is_derive_plus; apply JZ_derive|intros; apply Rmult_comm]. }
  change plus with Rplus. change mult with Rmult. change zero with 0. replace (n - 1 - 1)%Z with (n + -2)%Z by lia. replace (n - 1 + 1)%Z with (n + 0)%Z by lia. replace (n + 1 - 1)%Z with (n + 0)%Z by lia. replace (n + 1 + 1)%Z with (n + 2)%Z by lia. replace (n - 1)%Z with (n + -1)%Z by lia. replace (JZ n x) with (JZ (n + 0) x) by (f_equal; lia). field.
Qed.
Lemma im_derive x : is_derive im_part x (rsum (sym b) (fun n => ((JZ (n + -1) x - JZ (n + 1) x) ^ 2 / 2 + JZ (n + 0) x * (JZ (n + -2) x - 2 * JZ (n + 0) x + JZ (n + 2) x) / 2) * i n)).
Proof.
  apply derive_rsum. intros n. evar_last.
  { apply (is_derive_mult (fun x => JZ n x * (JZ (n - 1) x - JZ (n + 1) x)) (fun _ => i n) x); [|apply @is_derive_const|intros; apply Rmult_comm].
    apply (is_derive_mult (JZ n) (fun x => JZ (n - 1) x - JZ (n + 1) x) x); [apply JZ_derive|apply @is_derive_minus; apply JZ_derive|intros; apply Rmult_comm]. }
  unfold minus. change plus with Rplus. change mult with Rmult. change zero with 0. change opp with Ropp. replace (n - 1 - 1)%Z with (n + -2)%Z by lia. replace (n - 1 + 1)%Z with (n + 0)%Z by lia. replace (n + 1 - 1)%Z with (n + 0)%Z by lia. replace (n + 1 + 1)%Z with (n + 2)%Z by lia. replace (n - 1)%Z with (n + -1)%Z by lia. replace (JZ n x) with (JZ (n + 0) x) by (f_equal; lia). field.
Qed.
Lemma weighted (w v : Z -> R) k : (forall n, Rabs (w n) <= v n) -> rsum (sym b) v <= k -> Rabs (rsum (sym b) (fun n => w n * i n)) <= k * M.
Proof.
  intros W S. eapply Rle_trans; [apply rsum_abs|]. apply Rle_trans with (rsum (sym b) (fun n => M * v n)).
  - apply rsum_le. intros n Hn. rewrite Rabs_mult, Rmult_comm. apply Rmult_le_compat; try apply Rabs_pos; [now apply HM|apply W].
  - rewrite rsum_scal, Rmult_comm. apply Rmult_le_compat_r; [apply M_pos|exact S].
Qed.
Lemma amgm x y : Rabs (x * y) <= (x ^ 2 + y ^ 2) / 2.
Proof. apply Rabs_le. pose proof (pow2_ge_0 (x - y)). pose proof (pow2_ge_0 (x + y)). split; nra. Qed.
Lemma re_slope x : Rabs (rsum (sym b) (fun n => ((JZ (n + -1) x ^ 2 - JZ (n + 1) x ^ 2) / 2 + JZ (n + 0) x * (JZ (n + -2) x - JZ (n + 2) x) / 2) * i n)) <= 2 * M.
Proof.
  apply (weighted _ (fun n => / 2 * JZ (n + -1) x ^ 2 + (/ 2 * JZ (n + 1) x ^ 2 + (/ 2 * JZ (n + 0) x ^ 2 + (/ 4 * JZ (n + -2) x ^ 2 + / 4 * JZ (n + 2) x ^ 2))))).
  - intros n. set (p := JZ (n + -1) x). set (m := JZ (n + 1) x). set (z := JZ (n + 0) x). set (s := JZ (n + -2) x). set (t := JZ (n + 2) x).
    replace ((p ^ 2 - m ^ 2) / 2 + z * (s - t) / 2) with ((p ^ 2 - m ^ 2) / 2 + (z * s - z * t) / 2) by field. assert (A := amgm z s). assert (B := amgm z t). apply Rabs_le_between in A. apply Rabs_le_between in B. pose proof (pow2_ge_0 p). pose proof (pow2_ge_0 m). apply Rabs_le. lra.
  - rewrite !rsum_plus, !rsum_scal. pose proof (shifted_squares b (-1) x). pose proof (shifted_squares b 1 x). pose proof (shifted_squares b 0 x). pose proof (shifted_squares b (-2) x). pose proof (shifted_squares b 2 x). lra.
Qed.
Lemma im_slope x : Rabs (rsum (sym b) (fun n => ((JZ (n + -1) x - JZ (n + 1) x) ^ 2 / 2 + JZ (n + 0) x * (JZ (n + -2) x - 2 * JZ (n + 0) x + JZ (n + 2) x) / 2) * i n)) <= 4 * M.
Proof.
  apply (weighted _ (fun n => 1 * JZ (n + -1) x ^ 2 + (1 * JZ (n + 1) x ^ 2 + (3 / 2 * JZ (n + 0) x ^ 2 + (/ 4 * JZ (n + -2) x ^ 2 + / 4 * JZ (n + 2) x ^ 2))))).
  - intros n. set (p := JZ (n + -1) x). set (m := JZ (n + 1) x). set (z := JZ (n + 0) x). set (s := JZ (n + -2) x). set (t := JZ (n + 2) x).
    replace ((p - m) ^ 2 / 2 + z * (s - 2 * z + t) / 2) with ((p ^ 2 + m ^ 2) / 2 - p * m - z ^ 2 + (z * s + z * t) / 2) by field. assert (A := amgm z s). assert (B := amgm z t). assert (D := amgm p m). apply Rabs_le_between in A. apply Rabs_le_between in B. apply Rabs_le_between in D. pose proof (pow2_ge_0 p). pose proof (pow2_ge_0 m). pose proof (pow2_ge_0 z). pose proof (pow2_ge_0 s). pose proof (pow2_ge_0 t). apply Rabs_le. lra.
  - rewrite !rsum_plus, !rsum_scal. pose proof (shifted_squares b (-1) x). pose proof (shifted_squares b 1 x). pose proof (shifted_squares b 0 x). pose proof (shifted_squares b (-2) x). pose proof (shifted_squares b 2 x). lra.
Qed.
Lemma mvt_lip f d k x y : (forall z, is_derive f z (d z)) -> (forall z, Rabs (d z) <= k) -> Rabs (f x - f y) <= k * Rabs (x - y).
Proof.
  intros D B. destruct (MVT_gen f y x d) as [c [_ E]]. { intros z _. apply D. } { intros z _. apply continuity_pt_filterlim, (ex_derive_continuous f z). eexists. apply D. }
  rewrite E, Rabs_mult. apply Rmult_le_compat_r; [apply Rabs_pos|apply B].
Qed.
End Smooth.
Lemma Cmod_parts z : Cmod z <= Rabs (Re z) + Rabs (Im z).
Proof.
  unfold Cmod, Re, Im. destruct z as [x y]. cbn [fst snd]. apply Rsqr_incr_0_var; [|pose proof (Rabs_pos x); pose proof (Rabs_pos y); lra]. rewrite Rsqr_sqrt by nra. unfold Rsqr. rewrite <- (pow2_abs x), <- (pow2_abs y). pose proof (Rabs_pos x). pose proof (Rabs_pos y). nra.
Qed.
Lemma ac_smooth idc ikk vph b V M x y : (forall n, (Z.abs n <= Z.of_nat b)%Z -> Rabs (idc (V + IZR n * vph)) <= M /\ Rabs (ikk (V + IZR n * vph)) <= M) ->
  Cmod (Cminus (ac_current besselJ idc ikk vph x b V) (ac_current besselJ idc ikk vph y b V)) <= 6 * M * Rabs (x - y).
Proof.
  intros H. rewrite !ac_current_sums. eapply Rle_trans; [apply Cmod_parts|]. unfold Cminus, Cplus, Copp, Re, Im. cbn [fst snd].
  assert (A := mvt_lip (re_part (fun n => idc (V + IZR n * vph)) b) _ (2 * M) x y (fun z => re_derive _ b z) (fun z => re_slope _ M b (fun n Hn => proj1 (H n ltac:(apply in_sym in Hn; lia))) z)).
  assert (B := mvt_lip (im_part (fun n => ikk (V + IZR n * vph)) b) _ (4 * M) x y (fun z => im_derive _ b z) (fun z => im_slope _ M b (fun n Hn => proj2 (H n ltac:(apply in_sym in Hn; lia))) z)).
  unfold re_part, im_part, Rminus in *. lra.
Qed.

(** ** A junction whose current rises with the voltage absorbs power *)
Lemma absorbs idc ikk vph b V a : 0 < vph -> (forall x y, x <= y -> idc x <= idc y) -> (1 <= b)%nat -> idc (V - vph) < idc (V + vph) -> 0 < a <= 3 / 2 ->
  0 < Re (ac_current besselJ idc ikk vph a b V).
Proof.
  intros P I B SS A. rewrite ac_current_sums. unfold Re. cbn [fst].
  assert (E : a * rsum (sym b) (fun n => JZ n a * (JZ (n - 1) a + JZ (n + 1) a) * idc (V + IZR n * vph)) = rsum (sym b) (fun n => 2 * IZR n * JZ n a ^ 2 * idc (V + IZR n * vph))).
  { rewrite <- rsum_scal. apply rsum_ext. intros n _. replace (a * (JZ n a * (JZ (n - 1) a + JZ (n + 1) a) * idc (V + IZR n * vph))) with (JZ n a * idc (V + IZR n * vph) * (a * (JZ (n - 1) a + JZ (n + 1) a))) by ring. rewrite (J_recZ n a). ring. }
  assert (J1 : 0 < besselJ 1 a ^ 2). { rewrite J_P. assert (H := P1_lower ((a / 2) ^ 2) ltac:(nra)). apply pow_lt. rewrite pow_1. apply Rmult_lt_0_compat; lra. }
  assert (G : forall c, 2 * besselJ 1 a ^ 2 * (idc (V + vph) - idc (V - vph)) <= rsum (sym (S c)) (fun n => 2 * IZR n * JZ n a ^ 2 * idc (V + IZR n * vph))).
  { induction c as [|c IH]; rewrite rsum_sym_S, !besselZ_sq.
    - rewrite rsum_sym_0. replace (Z.abs_nat (Z.of_nat 1)) with 1%nat by lia. replace (Z.abs_nat (- Z.of_nat 1)) with 1%nat by lia. rewrite opp_IZR, <- INR_IZR_INZ. replace (INR 1) with 1 by reflexivity. replace (V + 1 * vph) with (V + vph) by ring. replace (V + - (1) * vph) with (V - vph) by ring. right. ring.
    - eapply Rle_trans; [exact IH|]. replace (Z.abs_nat (Z.of_nat (S (S c)))) with (S (S c)) by lia. replace (Z.abs_nat (- Z.of_nat (S (S c)))) with (S (S c)) by lia. rewrite opp_IZR, <- INR_IZR_INZ.
      assert (N := pos_INR (S (S c))). set (k := INR (S (S c))) in *. assert (W : idc (V + - k * vph) <= idc (V + k * vph)) by (apply I; nra). assert (Q := pow2_ge_0 (besselJ (S (S c)) a)). set (j := besselJ (S (S c)) a ^ 2) in *.
      assert (0 <= 2 * k * j * (idc (V + k * vph) - idc (V + - k * vph))) by (apply Rmult_le_pos; [apply Rmult_le_pos; [lra|assumption]|lra]). lra. }
  destruct b as [|c]; [lia|]. specialize (G c). rewrite <- E in G. assert (0 < 2 * besselJ 1 a ^ 2 * (idc (V + vph) - idc (V - vph))) by (apply Rmult_lt_0_compat; lra).
  apply Rmult_lt_reg_l with a; [lra|]. rewrite Rmult_0_r. lra.
Qed.

(** ** The circuit *)
Lemma re_quotient u w : 0 < u -> 0 < Re w -> 0 < Re (Cdiv (RtoC u) w).
Proof.
  intros U W. destruct w as [x y]. unfold Re in *. cbn [fst] in W. unfold Cdiv, Cinv, Cmult, RtoC. cbn [fst snd]. assert (0 < x ^ 2 + y ^ 2) by nra.
  replace (u * (x / (x ^ 2 + y ^ 2)) - 0 * (- y / (x ^ 2 + y ^ 2))) with (u * x * / (x ^ 2 + y ^ 2)) by (field; lra). apply Rmult_lt_0_compat; [nra|now apply Rinv_0_lt_compat].
Qed.
Lemma nz_re (w : C) : 0 < Re w -> w <> RtoC 0.
Proof. intros W E. rewrite E in W. unfold Re, RtoC in W. cbn in W. lra. Qed.
Lemma divided u (w z : C) : w <> RtoC 0 -> Cplus (RtoC u) (Cmult z w) <> RtoC 0 -> u <> 0 -> Cdiv (Cdiv (RtoC u) w) (Cplus z (Cdiv (RtoC u) w)) = Cdiv (RtoC u) (Cplus (RtoC u) (Cmult z w)).
Proof.
  intros W F U. field. repeat split; assumption.
Qed.
Lemma Cmod_tri_inv x y : Rabs (Cmod x - Cmod y) <= Cmod (Cminus x y).
Proof.
  apply Rabs_le. split.
  - assert (H := Cmod_triangle (Cminus y x) x). replace (Cplus (Cminus y x) x) with y in H by ring. replace (Cminus y x) with (Copp (Cminus x y)) in H by ring. rewrite Cmod_opp in H. lra.
  - assert (H := Cmod_triangle (Cminus x y) y). replace (Cplus (Cminus x y) y) with x in H by ring. lra.
Qed.
(** One sample. *)
Lemma residual vph (zt w0 w : C) t a L K D Vs T : 0 < vph -> 0 < a <= T -> K = vph + L * Cmod zt -> Cmod (Cminus w w0) <= L * D -> Rabs (a - t) <= D -> w <> RtoC 0 ->
  Cmod (Cplus (RtoC (t * vph)) (Cmult zt w0)) = Vs -> K * D < Vs ->
  let s := (RtoC (a * vph), Cdiv (RtoC (a * vph)) w) in
  (Cmod (fst s) - Vs * Cmod (Cdiv (snd s) (Cplus zt (snd s)))) ^ 2 <= (T * vph * (K * D) / (Vs - K * D)) ^ 2.
Proof.
  intros P A EK SS D0 N F B. cbn [fst snd]. set (f := Cplus (RtoC (a * vph)) (Cmult zt w)).
  assert (LF : Rabs (Cmod f - Vs) <= K * D).
  { rewrite <- F. eapply Rle_trans; [apply Cmod_tri_inv|]. assert (E : Cminus f (Cplus (RtoC (t * vph)) (Cmult zt w0)) = Cplus (RtoC ((a - t) * vph)) (Cmult zt (Cminus w w0))).
    { unfold f. rewrite !RtoC_mult, RtoC_minus. ring. }
    rewrite E. eapply Rle_trans; [apply Cmod_triangle|]. rewrite Cmod_R, Cmod_mult, Rabs_mult, (Rabs_pos_eq vph) by lra. rewrite EK. pose proof (Cmod_ge_0 zt). nra. }
  apply Rabs_le_between in LF. assert (FP : 0 < Cmod f) by lra. assert (AV : 0 < a * vph) by nra.
  assert (FN : f <> RtoC 0) by (intros E; rewrite E, Cmod_0 in FP; lra).
  rewrite divided by (assumption || lra). fold f. rewrite Cmod_div, Cmod_R, Rabs_pos_eq by (assumption || lra).
  replace (a * vph - Vs * (a * vph / Cmod f)) with (a * vph * (Cmod f - Vs) / Cmod f) by (field; lra).
  assert (KD : 0 <= K * D) by lra. apply pow_maj_Rabs. unfold Rdiv. rewrite !Rabs_mult, (Rabs_pos_eq (/ Cmod f)) by (left; now apply Rinv_0_lt_compat). rewrite (Rabs_pos_eq a), (Rabs_pos_eq vph) by lra.
  apply Rmult_le_compat; [apply Rmult_le_pos; [lra|apply Rabs_pos]|left; now apply Rinv_0_lt_compat| |apply Rinv_le_contravar; lra].
  apply Rmult_le_compat; [lra|apply Rabs_pos|nra|apply Rabs_le; lra].
Qed.

(** ** The recovery *)
Lemma dc_is idc vph b v a : dc_current idc vph b v a = pumped_iv besselJ idc vph a b v.
Proof. unfold dc_current. now rewrite zsum_rsum, pumped_sum. Qed.
Lemma rf_is idc ikk vph b v a : rf_current idc ikk vph b v a = ac_current besselJ idc ikk vph a b v.
Proof. unfold rf_current. now rewrite !zsum_rsum, ac_current_sums. Qed.
Lemma findable_is idc vph b amax v i a : findable idc vph b amax v i a -> pumped_iv besselJ idc vph a b v = i /\ increasing_on (fun x => pumped_iv besselJ idc vph x b v) 0 (a + amax / 2) /\
  Rabs (Rmax 0 ((i - idc v) / (pumped_iv besselJ idc vph amax b v - idc v) * amax) - a) <= amax / 2.
Proof. unfold findable. rewrite !dc_is. intros (A & B & D). split; [exact A|]. split; [|exact D]. intros x y X XY Y. rewrite <- !dc_is. now apply B. Qed.

Lemma fold_rsum {A} (l : list A) g : fold_right Rplus 0 (map g l) = rsum l g.
Proof. induction l as [|x l IH]; [reflexivity|]. cbn [map fold_right rsum]. now rewrite IH. Qed.
Lemma mean_le (l : list (C * C)) zs V e : l <> [] -> (forall s, In s l -> (Cmod (fst s) - V * Cmod (Cdiv (snd s) (Cplus zs (snd s)))) ^ 2 <= e) -> mismatch l zs V <= e.
Proof.
  intros N H. unfold mismatch. rewrite fold_rsum. assert (L : 0 < INR (length l)). { destruct l; [now contradiction N|]. apply lt_0_INR. cbn. lia. }
  apply Rle_div_l; [exact L|]. apply Rle_trans with (rsum l (fun _ => e)); [apply rsum_le; exact H|]. right. clear. induction l as [|x l IH]; [cbn; ring|]. cbn [rsum]. rewrite IH. cbn [length]. rewrite S_INR. ring.
Qed.
Lemma in_combine_nth {A B} (l : list A) (l' : list B) d d' p : length l = length l' -> In p (List.combine l l') -> exists k, (k < length l)%nat /\ p = (nth k l d, nth k l' d').
Proof. intros L H. apply (In_nth _ _ (d, d')) in H as (k & K & <-). rewrite combine_length, <- L, Nat.min_id in K. exists k. split; [assumption|]. now apply combine_nth. Qed.
Lemma nth_map_any {A} (f : A -> R) l k d : (k < length l)%nat -> nth k (map f l) 0 = f (nth k l d).
Proof. intros H. rewrite (nth_indep _ 0 (f d)) by now rewrite map_length. apply map_nth. Qed.
Lemma grid_resistance q i j : 0 < fst (r_remb q) -> fst (r_remb q) <= snd (r_remb q) -> 0 < Re (grid_point (r_remb q) (r_xemb q) i j).
Proof. intros A B. unfold grid_point, Re. cbn [fst]. assert (N := pos_INR i). assert (0 <= INR i * ((snd (r_remb q) - fst (r_remb q)) / 100)) by (apply Rmult_le_pos; lra). lra. Qed.
Theorem known idc ikk voltage current vph q r lo hi i0 j0 Vs M T :
  length voltage = length current -> range_used q lo hi -> r_zemb q = None -> recover_zemb besselJ idc ikk voltage current vph q = Ok r ->
  0 < vph -> 0 < r_alpha_max q -> (1 <= r_num_b q)%nat -> 0 < fst (r_remb q) -> fst (r_remb q) <= snd (r_remb q) -> (forall x y, x <= y -> idc x <= idc y) ->
  (i0 <= 100)%nat -> (j0 <= 200)%nat -> T <= 3 / 2 ->
  let zs := grid_point (r_remb q) (r_xemb q) i0 j0 in
  let B := step_samples vph lo hi voltage current in
  let D := r_alpha_max q / 2 ^ 16 in
  let K := (vph + 6 * M * Cmod zs) * D in
  let e := T * vph * K / (Vs - K) in
  K < Vs ->
  measured_with idc ikk vph q B zs Vs M T D ->
  exists al V, length al = length B /\ (forall k, (k < length B)%nat -> exists a, D < a <= T - D /\ measured_at idc ikk vph q zs Vs (fst (nth k B (0, 0))) (snd (nth k B (0, 0))) a /\ Rabs (nth k al 0 - a) <= D) /\
    rec_vt r = FV V /\ mismatch (map (fun p => rf_sample idc ikk vph (r_num_b q) (fst (fst p)) (snd p)) (List.combine B al)) (rec_zt r) V <= e ^ 2 /\
    (e ^ 2 <= 7 / 10 ^ 7 -> rec_fit r = true).
Proof.
  intros L RU ZN H P AM NB R1 R2 MI I0 J0 T32 zs B D K e KV HB. destruct (recover_best _ _ _ _ _ _ _ _ lo hi L RU ZN H) as (al & EA & G). cbv zeta in G. fold B in EA, G.
  destruct (recover_middle _ _ _ _ _ _ _ _ lo hi L RU H) as (al' & m & EA' & ML & _). cbv zeta in EA', ML. fold B in EA', ML. clear al' EA'.
  assert (LM : length (map fst B) = length (map snd B)) by (rewrite !map_length; reflexivity). destruct (alpha_nonneg _ _ _ _ _ _ _ _ LM EA) as [LA _]. rewrite map_length in LA.
  assert (FK : forall k, (k < length B)%nat -> exists a, (D < a <= T - D /\ measured_at idc ikk vph q zs Vs (fst (nth k B (0, 0))) (snd (nth k B (0, 0))) a /\ Rabs (nth k al 0 - a) <= D) /\
    idc (fst (nth k B (0, 0)) - vph) < idc (fst (nth k B (0, 0)) + vph) /\ bounded_steps idc ikk vph (r_num_b q) M (fst (nth k B (0, 0)))).
  { intros k KL. destruct (nth k B (0, 0)) as [v i] eqn:EN. assert (IB : In (v, i) B) by (rewrite <- EN; now apply nth_In). cbn [fst snd].
    destruct (HB v i IB) as (LT & BS & a & HA & MA). exists a. split; [|split; assumption]. split; [exact HA|]. split; [exact MA|]. destruct MA as [FI DR]. destruct (findable_is _ _ _ _ _ _ _ FI) as (FT & INC & FG).
    assert (EV : nth k (map fst B) 0 = v) by (rewrite (nth_map_any fst B k (0, 0)) by assumption; now rewrite EN). assert (EI : nth k (map snd B) 0 = i) by (rewrite (nth_map_any snd B k (0, 0)) by assumption; now rewrite EN).
    assert (CV := alpha_converges besselJ idc (map fst B) (map snd B) vph (r_alpha_max q) (r_num_b q) al k a LM EA AM). rewrite map_length, EV, EI in CV. assert (D0 : 0 < D) by (unfold D; apply Rdiv_lt_0_compat; [assumption|apply pow_lt; lra]).
    exact (CV KL ltac:(lra) FT INC FG). }
  assert (FD : forall p, In p (List.combine B al) -> exists a, 0 < snd p <= T /\ Rabs (snd p - a) <= D /\ driven_to idc ikk vph (r_num_b q) zs Vs (fst (fst p)) a /\ bounded_steps idc ikk vph (r_num_b q) M (fst (fst p)) /\
    0 < Re (ac_current besselJ idc ikk vph (snd p) (r_num_b q) (fst (fst p)))).
  { intros p IP. destruct (in_combine_nth B al (0, 0) 0 p (eq_sym LA) IP) as (k & KL & ->). cbn [fst snd]. destruct (FK k KL) as (a & (HA & (_ & DR) & CV) & LT & BS). exists a. assert (CV' := CV). apply Rabs_le_between in CV'. assert (RNG : 0 < nth k al 0 <= T) by lra.
    split; [assumption|]. split; [assumption|]. split; [assumption|]. split; [assumption|]. apply absorbs; try assumption. lra. }
  destruct G as (i & j & V & _ & _ & EZ & EV & MIN & FIT).
  - intros p IP. destruct (FD p IP) as (a & _ & _ & _ & _ & W). now apply nz_re.
  - intros i j _ _. split.
    + intros s IS. apply in_map_iff in IS as (p & <- & IP). destruct (FD p IP) as (a & A & _ & _ & _ & W). apply nz_re. unfold junction_sample. cbn [snd]. assert (RG := grid_resistance q i j R1 R2). assert (RQ := re_quotient (snd p * vph) _ ltac:(nra) W).
      set (x := grid_point _ _ _ _) in *. set (y := Cdiv _ _) in *. unfold Re, Cplus in *. cbn [fst]. lra.
    + destruct B as [|b0 B']; [cbn in ML; lia|]. destruct al as [|a0 al']; [discriminate LA|]. exists (junction_sample besselJ idc ikk vph (r_num_b q) (fst b0) a0). cbn [List.combine map]. split; [now left|].
      destruct (FD (b0, a0) ltac:(now left)) as (a & A & _ & _ & _ & W). cbn [fst snd] in *. unfold junction_sample. cbn [snd]. apply nz_re, re_quotient; [nra|assumption].
  - assert (SA : map (fun p => rf_sample idc ikk vph (r_num_b q) (fst (fst p)) (snd p)) (List.combine B al) = map (fun p => junction_sample besselJ idc ikk vph (r_num_b q) (fst (fst p)) (snd p)) (List.combine B al)).
    { apply map_ext. intros p. unfold rf_sample, junction_sample. now rewrite rf_is. }
    exists al, V. split; [assumption|]. split. { intros k KL. destruct (FK k KL) as (a & HA & _). exists a. exact HA. } split; [assumption|]. rewrite SA.
    assert (BD : mismatch (map (fun p => junction_sample besselJ idc ikk vph (r_num_b q) (fst (fst p)) (snd p)) (List.combine B al)) (rec_zt r) V <= e ^ 2).
    { eapply Rle_trans; [apply (MIN i0 j0 Vs I0 J0)|]. fold zs. apply mean_le.
      - destruct B as [|b0 B']; [cbn in ML; lia|]. destruct al as [|a0 al']; [discriminate LA|]. discriminate.
      - intros s IS. apply in_map_iff in IS as (p & <- & IP). destruct (FD p IP) as (a & A & NR & DR & BS & W). unfold junction_sample.
        assert (M0 : 0 <= M). { eapply Rle_trans; [apply Rabs_pos|]. apply (proj1 (BS 0%Z ltac:(lia))). }
        assert (R := residual vph zs (ac_current besselJ idc ikk vph a (r_num_b q) (fst (fst p))) (ac_current besselJ idc ikk vph (snd p) (r_num_b q) (fst (fst p))) a (snd p) (6 * M) _ D Vs T P A eq_refl).
        unfold driven_to in DR. rewrite rf_is in DR. unfold e, K. apply R; [|exact NR|now apply nz_re|exact DR|exact KV]. eapply Rle_trans; [apply ac_smooth; exact BS|]. apply Rmult_le_compat_l; [lra|exact NR]. }
    split; [exact BD|]. intros EE. apply FIT. lra.
Qed.
Theorem rf_smooth idc ikk vph b V M x y : bounded_steps idc ikk vph b M V -> Cmod (Cminus (rf_current idc ikk vph b V x) (rf_current idc ikk vph b V y)) <= 6 * M * Rabs (x - y).
Proof. rewrite !rf_is. apply ac_smooth. Qed.
Theorem rf_absorbs idc ikk vph b V a : 0 < vph -> (forall x y, x <= y -> idc x <= idc y) -> (1 <= b)%nat -> idc (V - vph) < idc (V + vph) -> 0 < a <= 3 / 2 -> 0 < Re (rf_current idc ikk vph b V a).
Proof. rewrite rf_is. apply absorbs. Qed.
