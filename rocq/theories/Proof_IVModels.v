(** Proofs about the I-V curve models. *)
From Coq Require Import List ZArith Lia Bool Reals Lra String.
From Coquelicot Require Import Rbar Hierarchy Lim_seq Continuity Rcomplements.
From Verif Require Import Base Model_QtCurrent Proof_Circuit Model_Circuit Float Model_IVModels Spec_IVModels Proof_Case.
Import ListNotations.
Open Scope R_scope.

Lemma names_model_iff s m : names_model s m <->
  match m with Fixed => lower s = "fixed"%string \/ lower s = "corrected"%string | Original => lower s = "original"%string end.
Proof. destruct m; unfold names_model; rewrite !circuit_case; reflexivity. Qed.

Lemma Rltb_t x y : x < y -> Rltb x y = true.
Proof. unfold Rltb. destruct (Rlt_dec x y); tauto. Qed.
Lemma Rltb_f x y : y <= x -> Rltb x y = false.
Proof. unfold Rltb. destruct (Rlt_dec x y); [lra|reflexivity]. Qed.
Lemma Reqb_t x y : x = y -> Reqb x y = true.
Proof. unfold Reqb. destruct (Req_EM_T x y); tauto. Qed.
Lemma Reqb_f x y : x <> y -> Reqb x y = false.
Proof. unfold Reqb. destruct (Req_EM_T x y); tauto. Qed.

Lemma Rabs_m1 : Rabs (-1) = 1.
Proof. unfold Rabs. destruct (Rcase_abs (-1)); lra. Qed.
Lemma Rabs_one v : Rabs v = 1 -> v = 1 \/ v = -1.
Proof. unfold Rabs. destruct (Rcase_abs v); lra. Qed.

(** ** perfect *)
Lemma perfect_fin v : exists y, perfect_elt (FV v) = FV y /\ ideal v y.
Proof.
  unfold perfect_elt, feq, flt, fabs. destruct (Rlt_dec (Rabs v) 1) as [H|H].
  - exists 0. rewrite (Rltb_t _ _ H). split; [reflexivity|]. split; [auto|]. split; intros; lra.
  - rewrite (Rltb_f (Rabs v)) by lra. destruct (Req_EM_T (Rabs v) 1) as [E|E].
    + exists (v / 2). split; [|split; [|split]; intros; lra]. destruct (Rabs_one v E) as [->| ->].
      * rewrite (Reqb_t 1 1), (Reqb_f 1 (-1)) by lra. reflexivity.
      * rewrite (Reqb_f (-1) 1), (Reqb_t (-1) (-1)) by lra. f_equal. lra.
    + exists v. split; [|split; [|split]; intros; lra]. 
      assert (v <> 1) by (intros ->; rewrite Rabs_R1 in E; lra).
      assert (v <> -1) by (intros ->; rewrite Rabs_m1 in E; lra).
      now rewrite !Reqb_f.
Qed.

Lemma ideal_unique v y y' : ideal v y -> ideal v y' -> y = y'.
Proof. intros [A [B C]] [A' [B' C']]. destruct (Rtotal_order (Rabs v) 1) as [H|[H|H]]; [rewrite A, A'|rewrite B, B'|rewrite C, C']; auto. Qed.
Lemma ideal_opp v y : ideal v y -> ideal (- v) (- y).
Proof. unfold ideal. rewrite Rabs_Ropp. intros [A [B C]]. repeat split; intros H; [rewrite A|rewrite B|rewrite C]; auto; lra. Qed.
Lemma ideal_odd_elt v : perfect_elt (FV (- v)) = fopp (perfect_elt (FV v)).
Proof.
  destruct (perfect_fin v) as [y [E I]], (perfect_fin (- v)) as [y' [E' I']]. rewrite E, E'. simpl. f_equal.
  apply (ideal_unique (- v)); [assumption|now apply ideal_opp].
Qed.
Lemma perfect_elt_opp x : perfect_elt (fopp x) = fopp (perfect_elt x).
Proof. destruct x; [apply ideal_odd_elt|reflexivity..]. Qed.

Lemma perfect_odd_array l l' : perfect (AFloat l) = OFloats l' -> perfect (AFloat (map fopp l)) = OFloats (map fopp l').
Proof. simpl. intros [= <-]. f_equal. rewrite !map_map. apply map_ext. apply perfect_elt_opp. Qed.
Lemma perfect_odd_int l l' : perfect (AInt l) = OInts l' -> perfect (AInt (map Z.opp l)) = OInts (map Z.opp l').
Proof.
  simpl. intros [= <-]. f_equal. rewrite !map_map. apply map_ext. intros z. unfold perfect_elt_int.
  destruct (Z.eqb_spec z 1), (Z.eqb_spec z (-1)), (Z.eqb_spec (- z) 1), (Z.eqb_spec (- z) (-1)), (Z.ltb_spec (Z.abs z) 1), (Z.ltb_spec (Z.abs (- z)) 1); lia.
Qed.

Lemma scalar_float v : exists y, value (perfect (SFloat (FV v))) = Some (FV y) /\ ideal v y.
Proof.
  cbn [perfect]. unfold feq, flt, fabs. destruct (Rtotal_order (Rabs v) 1) as [H|[H|H]].
  - rewrite (Rltb_t _ _ H). exists 0. split; [reflexivity|]. repeat split; intros; lra.
  - rewrite H, !(Rltb_f 1 1) by lra. exists (v / 2). split; [|repeat split; intros; lra].
    destruct (Rabs_one v H) as [->| ->].
    + rewrite Reqb_t by lra. reflexivity.
    + rewrite Reqb_f, Reqb_t by lra. simpl. do 2 f_equal. lra.
  - rewrite (Rltb_f (Rabs v)), (Rltb_t 1) by lra. exists v. split; [reflexivity|]. repeat split; intros; lra.
Qed.
Lemma scalar_int z : exists y, value (perfect (SInt z)) = Some (FV y) /\ ideal (IZR z) y.
Proof.
  cbn [perfect]. unfold ideal. rewrite <- abs_IZR.
  destruct (Z.ltb_spec (Z.abs z) 1) as [H|H]; [|destruct (Z.ltb_spec 1 (Z.abs z)) as [H'|H']].
  - exists 0. split; [reflexivity|]. apply IZR_lt in H. repeat split; intros; lra.
  - exists (IZR z). split; [reflexivity|]. apply IZR_lt in H'. repeat split; intros; lra.
  - assert (E : (z = 1 \/ z = -1)%Z) by lia. exists (IZR z / 2). split.
    + destruct E as [->| ->]; simpl; do 2 f_equal; lra.
    + assert (IZR (Z.abs z) = 1) by (f_equal; lia). repeat split; intros; lra.
Qed.
Lemma array_float l : exists ys, perfect (AFloat (map FV l)) = OFloats (map FV ys) /\ Forall2 ideal l ys.
Proof.
  induction l as [|v l [ys [E F]]]; [exists []; split; [reflexivity|constructor]|].
  destruct (perfect_fin v) as [y [Ey Iy]]. exists (y :: ys). split; [|now constructor].
  cbn [map perfect] in *. injection E as E. now rewrite Ey, E.
Qed.
Lemma array_int l : Forall (fun z => z <> 1 /\ z <> -1)%Z l ->
  exists ys, perfect (AInt l) = OInts ys /\ Forall2 (fun v y => ideal (IZR v) (IZR y)) l ys.
Proof.
  intros F. exists (map perfect_elt_int l). split; [reflexivity|]. induction F as [|z l [N1 N2] F IH]; [constructor|]. cbn [map]. constructor; [|assumption].
  unfold perfect_elt_int, ideal. rewrite <- abs_IZR. destruct (Z.eqb_spec z 1), (Z.eqb_spec z (-1)); try lia.
  destruct (Z.ltb_spec (Z.abs z) 1) as [H|H].
  - apply IZR_lt in H. repeat split; intros; lra.
  - assert (H' : (1 < Z.abs z)%Z) by lia. apply IZR_lt in H'. repeat split; intros; lra.
Qed.
Lemma array_int_gap : perfect (AInt [1; -1]%Z) = OInts [0; 0]%Z.
Proof. reflexivity. Qed.
Lemma ideal_gap : ideal 1 (1 / 2) /\ forall y, ideal 1 y -> y = 1 / 2.
Proof. unfold ideal. rewrite Rabs_R1. split; [repeat split; intros; lra|]. intros y [_ [B _]]. now apply B. Qed.
Lemma nan_scalar : perfect (SFloat FNaN) = ONone /\ perfect (AFloat [FNaN]) = OFloats [FNaN].
Proof. split; reflexivity. Qed.

(** ** perfect_kk *)
Lemma kk_even m v : perfect_kk_elt m (- v) = perfect_kk_elt m v.
Proof.
  unfold perfect_kk_elt. rewrite Rabs_Ropp. destruct (Req_EM_T (Rabs v) 1) as [E|E]; [now rewrite (Reqb_t _ _ E)|]. rewrite (Reqb_f _ _ E). cbn [negb].
  assert (v <> 1) by (intros ->; rewrite Rabs_R1 in E; lra).
  assert (v <> -1) by (intros ->; rewrite Rabs_m1 in E; lra).
  replace ((- v - 1) / (- v + 1)) with (/ ((v - 1) / (v + 1))) by (field; repeat split; lra).
  rewrite Rabs_inv, ln_Rinv; [lra|]. apply Rabs_pos_lt. intros K. apply Rmult_integral in K. destruct K as [K|K]; [lra|]. now apply Rinv_neq_0_compat in K; [|lra].
Qed.
Lemma kk_gap m v : Rabs v = 1 -> perfect_kk_elt m v = m.
Proof. intros E. unfold perfect_kk_elt. now rewrite Reqb_t. Qed.
Lemma kk_origin m : perfect_kk_elt m 0 = - 2 / PI.
Proof. unfold perfect_kk_elt. rewrite Rabs_R0, Reqb_f by lra. simpl. field. apply PI_neq0. Qed.

(** ** polynomial *)
Lemma poly_den v k : 0 < 1 + v ^ (2 * k).
Proof. rewrite pow_mult. pose proof (pow_le (v ^ 2) k (pow2_ge_0 v)). lra. Qed.
Lemma poly_form v k : polynomial v k = v * (v ^ (2 * k) / (1 + v ^ (2 * k))).
Proof. unfold polynomial. rewrite pow_add. pose proof (poly_den v k). field. lra. Qed.
Lemma pow_even_opp v k : (- v) ^ (2 * k) = v ^ (2 * k).
Proof. rewrite !pow_mult. f_equal. ring. Qed.
Lemma poly_odd v k : polynomial (- v) k = - polynomial v k.
Proof. rewrite !poly_form, pow_even_opp. ring. Qed.
Lemma poly_zero k : polynomial 0 k = 0.
Proof. rewrite poly_form. ring. Qed.
Lemma poly_gap k : polynomial 1 k = 1 / 2.
Proof. unfold polynomial. rewrite !pow1. field. Qed.
Lemma poly_frac v k : 0 <= v ^ (2 * k) / (1 + v ^ (2 * k)) < 1.
Proof.
  pose proof (poly_den v k). assert (0 <= v ^ (2 * k)) by (rewrite pow_mult; apply pow_le, pow2_ge_0). split.
  - apply Rmult_le_pos; [lra|]. left. now apply Rinv_0_lt_compat.
  - apply Rmult_lt_reg_r with (1 + v ^ (2 * k)); [lra|]. unfold Rdiv. rewrite Rmult_assoc, Rinv_l by lra. lra.
Qed.
Lemma poly_bounds v k : 0 <= v -> 0 <= polynomial v k <= v.
Proof. intros H. rewrite poly_form. pose proof (poly_frac v k). split; [now apply Rmult_le_pos|]. set (z := _ / _) in *. replace v with (v * 1) at 2 by ring. apply Rmult_le_compat_l; lra. Qed.
Lemma pow_lt_compat u v k : 0 <= u < v -> u ^ k <= v ^ k.
Proof. intros H. apply pow_incr. lra. Qed.
Lemma frac_mono a b : 0 <= a <= b -> a / (1 + a) <= b / (1 + b).
Proof. intros H. apply Rmult_le_reg_r with (1 + a); [lra|]. apply Rmult_le_reg_r with (1 + b); [lra|]. field_simplify; lra. Qed.
Lemma poly_incr_pos u v k : 0 <= u < v -> polynomial u k < polynomial v k.
Proof.
  intros H. rewrite !poly_form. assert (Hp : 0 < v ^ (2 * k)) by (apply pow_lt; lra).
  assert (M := frac_mono (u ^ (2 * k)) (v ^ (2 * k))). assert (Hu : 0 <= u ^ (2 * k)) by (apply pow_le; lra). specialize (M (conj Hu (pow_lt_compat u v (2 * k) H))).
  assert (P : 0 < v ^ (2 * k) / (1 + v ^ (2 * k))) by (apply Rdiv_lt_0_compat; lra).
  apply Rle_lt_trans with (u * (v ^ (2 * k) / (1 + v ^ (2 * k)))); [apply Rmult_le_compat_l; lra|]. apply Rmult_lt_compat_r; lra.
Qed.
Lemma poly_incr u v k : u < v -> polynomial u k < polynomial v k.
Proof.
  intros H. destruct (Rle_dec 0 u) as [Hu|Hu]; [now apply poly_incr_pos|]. destruct (Rle_dec v 0) as [Hv|Hv].
  - rewrite <- (Ropp_involutive u), <- (Ropp_involutive v), !(poly_odd (- _)). apply Ropp_lt_contravar, poly_incr_pos. lra.
  - assert (A : polynomial u k < 0). { rewrite <- (Ropp_involutive u), poly_odd. rewrite <- Ropp_0, <- (poly_zero k). rewrite poly_zero. rewrite <- (poly_zero k) at 1. apply Ropp_lt_contravar, poly_incr_pos. lra. }
    assert (B : 0 <= polynomial v k) by (apply poly_bounds; lra). lra.
Qed.

Lemma pow_35_199 : 35 ^ 199 < 2 ^ 1023.
Proof. rewrite !pow_IZR. apply IZR_lt. vm_compute. reflexivity. Qed.
Lemma pow_35_200 : 2 ^ 1024 <= 35 ^ 200.
Proof. rewrite !pow_IZR. apply IZR_le. vm_compute. discriminate. Qed.
Lemma pow_le_35 v n : Rabs v <= 35 -> (n <= 199)%nat -> Rabs (v ^ n) < 2 ^ 1023.
Proof.
  intros H Hn. rewrite <- RPow_abs. apply Rle_lt_trans with (35 ^ 199); [|apply pow_35_199].
  apply Rle_trans with (35 ^ n); [apply pow_incr; split; [apply Rabs_pos|assumption]|]. apply Rle_pow; [lra|assumption].
Qed.
Lemma two_1023 : 2 ^ 1024 = 2 * 2 ^ 1023.
Proof. reflexivity. Qed.
Lemma big_1023 : 1 < 2 ^ 1023.
Proof. apply Rlt_pow_R1; [lra|lia]. Qed.
Lemma ovf_fin x : Rabs x < 2 ^ 1024 -> ovf (FV x) = FV x.
Proof. intros H. cbn [ovf]. now rewrite Rltb_t. Qed.
Lemma poly_finite v k : Rabs v <= 35 -> (k <= 99)%nat -> polynomial_ovf v k = FV (polynomial v k).
Proof.
  intros H Hk. unfold polynomial_ovf.
  assert (A : Rabs (v ^ (2 * k + 1)) < 2 ^ 1023) by (apply pow_le_35; [assumption|lia]).
  assert (B : Rabs (v ^ (2 * k)) < 2 ^ 1023) by (apply pow_le_35; [assumption|lia]).
  pose proof big_1023. rewrite !ovf_fin; rewrite ?two_1023; try lra.
  all: cbn [fadd]; rewrite ?ovf_fin; rewrite ?two_1023; try (eapply Rle_lt_trans; [apply Rabs_triang|]; rewrite Rabs_R1; lra).
  cbn [fdiv]. pose proof (poly_den v k). rewrite Reqb_f by lra. fold (polynomial v k). apply ovf_fin. rewrite two_1023.
  apply Rle_lt_trans with 35; [|assert (2 ^ 6 <= 2 ^ 1023) by (apply Rle_pow; [lra|lia]); lra].
  destruct (Rle_dec 0 v) as [Hv|Hv].
  - pose proof (poly_bounds v k Hv). rewrite Rabs_right by lra. rewrite Rabs_right in H; lra.
  - rewrite <- (Ropp_involutive v), poly_odd, Rabs_Ropp. assert (Hw : 0 <= - v) by lra. pose proof (poly_bounds (- v) k Hw). rewrite Rabs_right by lra. rewrite Rabs_left in H; lra.
Qed.
Lemma poly_overflow k : (100 <= k)%nat -> polynomial_ovf 35 k = FNaN.
Proof.
  intros Hk. unfold polynomial_ovf.
  assert (A : 2 ^ 1024 <= 35 ^ (2 * k)) by (eapply Rle_trans; [apply pow_35_200|apply Rle_pow; [lra|lia]]).
  assert (B : 2 ^ 1024 <= 35 ^ (2 * k + 1)) by (eapply Rle_trans; [apply pow_35_200|apply Rle_pow; [lra|lia]]).
  assert (P : forall n, 2 ^ 1024 <= 35 ^ n -> ovf (FV (35 ^ n)) = FPInf).
  { intros n H. cbn [ovf]. assert (0 < 2 ^ 1024) by (apply pow_lt; lra). rewrite Rabs_right by lra. rewrite Rltb_f by assumption. unfold finf. now rewrite Rltb_f by lra. }
  rewrite !P by assumption. reflexivity.
Qed.

(** ** exponential and expanded *)
Lemma fermi_opp x : fermi (- x) = 1 - fermi x.
Proof. unfold fermi. rewrite exp_Ropp. pose proof (exp_pos x). field. split; lra. Qed.
Lemma fermi_pos x : 0 < fermi x.
Proof. unfold fermi. pose proof (exp_pos x). apply Rdiv_lt_0_compat; lra. Qed.
Lemma fermi_le_exp x : fermi x <= exp (- x).
Proof. unfold fermi. rewrite exp_Ropp. pose proof (exp_pos x). unfold Rdiv. rewrite Rmult_1_l. apply Rinv_le_contravar; lra. Qed.
Lemma over_fermi c x : c / (1 + exp x) = c * fermi x.
Proof. unfold fermi. field. pose proof (exp_pos x). lra. Qed.

(** Both exponential models and the expanded model, through fermi (a (v +- g)). *)
Ltac fermi_norm a g v :=
  replace (- a * (- v - g)) with (a * (v + g)) by ring;
  replace (- a * (- v + g)) with (a * (v - g)) by ring;
  replace (a * (- v - g)) with (- (a * (v + g))) by ring;
  replace (a * (- v + g)) with (- (a * (v - g))) by ring;
  replace (- a * (v - g)) with (- (a * (v - g))) by ring;
  replace (- a * (v + g)) with (- (a * (v + g))) by ring.

Lemma rmap_ok (x y : R) : y = - x -> Ok y = rmap Ropp (Ok x).
Proof. now intros ->. Qed.
Lemma exp_odd v vgap rn rsg agap m : exponential (- v) vgap rn rsg agap m = rmap Ropp (exponential v vgap rn rsg agap m).
Proof.
  unfold exponential. destruct (Reqb rn 0); [reflexivity|]. cbv zeta. replace (- v * vgap) with (- (v * vgap)) by ring. set (x := v * vgap).
  destruct (_ || _); [|destruct (_ =? _)%string; [|reflexivity]]; apply rmap_ok; fermi_norm agap vgap x; rewrite !fermi_opp; unfold Rdiv; ring.
Qed.
Lemma Ropp_eq0 x : x = - x -> x = 0.
Proof. lra. Qed.
Lemma exp_zero vgap rn rsg agap m y : exponential 0 vgap rn rsg agap m = Ok y -> y = 0.
Proof.
  intros H. pose proof (exp_odd 0 vgap rn rsg agap m) as E. rewrite Ropp_0, H in E. cbn [rmap] in E. injection E. apply Ropp_eq0.
Qed.
Lemma exp_raises v vgap rn rsg agap m : rn <> 0 ->
  (exponential v vgap rn rsg agap m = Err ValueError <-> ~ names_model m Fixed /\ ~ names_model m Original).
Proof.
  intros Hr. unfold exponential. rewrite !names_model_iff. rewrite Reqb_f by assumption. cbv zeta.
  destruct (String.eqb_spec (lower m) "fixed") as [E|E]; [split; [discriminate|tauto]|].
  destruct (String.eqb_spec (lower m) "corrected") as [E'|E']; [split; [discriminate|tauto]|]. cbn [orb].
  destruct (String.eqb_spec (lower m) "original") as [E''|E'']; [split; [discriminate|tauto]|]. tauto.
Qed.
Lemma exp_ok v vgap rn rsg agap m k : rn <> 0 -> names_model m k -> exists y, exponential v vgap rn rsg agap m = Ok y.
Proof.
  intros Hr H. destruct (exponential v vgap rn rsg agap m) as [y|e] eqn:E; [eauto|exfalso].
  assert (e = ValueError). { unfold exponential in E. rewrite Reqb_f in E by assumption. cbv zeta in E. destruct (_ || _); [discriminate|]. destruct (_ =? _)%string; [discriminate|]. congruence. }
  subst. apply exp_raises in E; [|assumption]. destruct k; tauto.
Qed.

Lemma expanded_odd v vgap rn rsg agap a0 ileak vnot inot anot ioff :
  expanded (- v) vgap rn rsg agap a0 ileak vnot inot anot ioff = rmap Ropp (expanded v vgap rn rsg agap a0 ileak vnot inot anot ioff).
Proof.
  unfold expanded. destruct (Reqb rn 0); [reflexivity|]. cbv zeta. replace (- v * vgap) with (- (v * vgap)) by ring. set (x := v * vgap).
  apply rmap_ok. rewrite !over_fermi. fermi_norm agap vgap x. fermi_norm anot vnot x.
  replace (- a0 * - x) with (a0 * x) by ring. replace (- a0 * x) with (- (a0 * x)) by ring. rewrite !fermi_opp. unfold Rdiv. ring.
Qed.
Lemma expanded_zero vgap rn rsg agap a0 ileak vnot inot anot ioff y : expanded 0 vgap rn rsg agap a0 ileak vnot inot anot ioff = Ok y -> y = 0.
Proof.
  intros H. pose proof (expanded_odd 0 vgap rn rsg agap a0 ileak vnot inot anot ioff) as E. rewrite Ropp_0, H in E. cbn [rmap] in E. injection E. apply Ropp_eq0.
Qed.
Lemma expanded_ok v vgap rn rsg agap a0 ileak vnot inot anot ioff : rn <> 0 ->
  exists y, expanded v vgap rn rsg agap a0 ileak vnot inot anot ioff = Ok y.
Proof. intros H. unfold expanded. rewrite Reqb_f by assumption. eauto. Qed.

(** ** Sharp gap *)
(** The distance from the limits, for all sharpness values. *)
Lemma exp_form v vgap rn rsg agap m y : exponential v vgap rn rsg agap m = Ok y -> 0 < vgap -> 0 < rn -> 0 < rsg ->
  let p := fermi (agap * (v * vgap + vgap)) in let n := fermi (- (agap * (v * vgap - vgap))) in
  (names_model m Fixed -> y = v * rn / rsg * (1 - p - n) + v * (p + n)) /\
  (names_model m Original -> y = v * rn / rsg * (2 - p - n) + v * (p + n)).
Proof.
  intros H Hg Hr Hs p n. unfold exponential in H. rewrite Reqb_f in H by lra. cbv zeta in H.
  replace (- agap * (v * vgap + vgap)) with (- (agap * (v * vgap + vgap))) in H by ring.
  replace (- agap * (v * vgap - vgap)) with (- (agap * (v * vgap - vgap))) in H by ring. rewrite (fermi_opp (agap * (v * vgap + vgap))) in H.
  assert (N : fermi (agap * (v * vgap - vgap)) = 1 - n) by (unfold n; rewrite fermi_opp; ring). rewrite N in H. fold p n in H. clearbody p n. clear N.
  rewrite !names_model_iff. destruct (String.eqb_spec (lower m) "fixed") as [E|E]; [|destruct (String.eqb_spec (lower m) "corrected") as [E'|E']; [|destruct (String.eqb_spec (lower m) "original") as [E''|E'']]]; cbn [orb] in H.
  - injection H as <-. split; intros K; [field; lra|]. rewrite E in K. discriminate.
  - injection H as <-. split; intros K; [field; lra|]. rewrite E' in K. discriminate.
  - injection H as <-. split; intros K; [|field; lra]. rewrite E'' in K. destruct K; discriminate.
  - discriminate.
Qed.

Definition tail (agap vgap v : R) : R := exp (- (agap * vgap * (1 - Rabs v))).
Definition tail' (agap vgap v : R) : R := exp (- (agap * vgap * (Rabs v - 1))).

Lemma Rabs_cases v : (0 <= v /\ Rabs v = v) \/ (v <= 0 /\ Rabs v = - v).
Proof. destruct (Rle_dec 0 v); [left|right]; split; try lra; [apply Rabs_right|apply Rabs_left1]; lra. Qed.

Lemma fermi_sum_below agap vgap v : 0 < vgap -> 0 < agap -> Rabs v <= 1 ->
  0 < fermi (agap * (v * vgap + vgap)) + fermi (- (agap * (v * vgap - vgap))) <= 2 * tail agap vgap v.
Proof.
  intros Hg Ha Hv. pose proof (fermi_pos (agap * (v * vgap + vgap))). pose proof (fermi_pos (- (agap * (v * vgap - vgap)))). split; [lra|].
  assert (M : forall x y, x <= y -> exp x <= exp y) by (intros x y [L|E]; [left; now apply exp_increasing|rewrite E; lra]).
  assert (0 < agap * vgap) by now apply Rmult_lt_0_compat.
  assert (fermi (agap * (v * vgap + vgap)) <= tail agap vgap v).
  { eapply Rle_trans; [apply fermi_le_exp|]. apply M. apply Ropp_le_contravar. replace (agap * (v * vgap + vgap)) with (agap * vgap * (1 + v)) by ring. apply Rmult_le_compat_l; [lra|]. destruct (Rabs_cases v); lra. }
  assert (fermi (- (agap * (v * vgap - vgap))) <= tail agap vgap v).
  { eapply Rle_trans; [apply fermi_le_exp|]. apply M. apply Ropp_le_contravar. replace (- (agap * (v * vgap - vgap))) with (agap * vgap * (1 - v)) by ring. apply Rmult_le_compat_l; [lra|]. destruct (Rabs_cases v); lra. }
  lra.
Qed.
Lemma fermi_sum_above agap vgap v : 0 < vgap -> 0 < agap -> 1 <= Rabs v ->
  Rabs (fermi (agap * (v * vgap + vgap)) + fermi (- (agap * (v * vgap - vgap))) - 1) <= tail' agap vgap v.
Proof.
  intros Hg Ha Hv. 
  assert (M : forall x y, x <= y -> exp x <= exp y) by (intros x y [L|E]; [left; now apply exp_increasing|rewrite E; lra]).
  assert (0 < agap * vgap) by now apply Rmult_lt_0_compat.
  assert (B : forall x, agap * vgap * (Rabs v - 1) <= x -> fermi x <= tail' agap vgap v).
  { intros x Hx. eapply Rle_trans; [apply fermi_le_exp|]. apply M. lra. }
  set (X := agap * (v * vgap + vgap)). set (Y := agap * (v * vgap - vgap)).
  assert (EX : X = agap * vgap * (v + 1)) by (unfold X; ring). assert (EY : Y = agap * vgap * (v - 1)) by (unfold Y; ring).
  pose proof (fermi_pos X). pose proof (fermi_pos Y). pose proof (fermi_pos (- X)). pose proof (fermi_pos (- Y)).
  destruct (Rabs_cases v) as [[S E]|[S E]].
  - rewrite (fermi_opp Y). assert (fermi X <= tail' agap vgap v) by (apply B; rewrite EX, E; apply Rmult_le_compat_l; lra).
    assert (fermi Y <= tail' agap vgap v) by (apply B; rewrite EY, E; apply Rmult_le_compat_l; lra). apply Rabs_le. lra.
  - assert (F := fermi_opp X). assert (fermi (- X) <= tail' agap vgap v) by (apply B; replace (- X) with (agap * vgap * (- v - 1)) by (rewrite EX; ring); rewrite E; apply Rmult_le_compat_l; lra).
    assert (fermi (- Y) <= tail' agap vgap v) by (apply B; replace (- Y) with (agap * vgap * (- v + 1)) by (rewrite EY; ring); rewrite E; apply Rmult_le_compat_l; lra). apply Rabs_le. lra.
Qed.

Lemma exp_below v vgap rn rsg agap m y : 0 < vgap -> 0 < rn -> 0 < rsg -> 0 < agap -> Rabs v <= 1 -> exponential v vgap rn rsg agap m = Ok y ->
  (names_model m Fixed -> Rabs (y - v * (rn / rsg)) <= Rabs (v * (1 - rn / rsg)) * (2 * exp (- (agap * vgap * (1 - Rabs v))))) /\
  (names_model m Original -> Rabs (y - 2 * (v * (rn / rsg))) <= Rabs (v * (1 - rn / rsg)) * (2 * exp (- (agap * vgap * (1 - Rabs v))))).
Proof.
  intros Hg Hr Hs Ha Hv H. destruct (exp_form v vgap rn rsg agap m y H Hg Hr Hs) as [F O]. destruct (fermi_sum_below agap vgap v Hg Ha Hv) as [S T]. unfold tail in T. set (p := fermi (agap * (v * vgap + vgap))) in *. set (n := fermi (- (agap * (v * vgap - vgap)))) in *.
  split; intros K; [rewrite (F K)|rewrite (O K)].
  - replace (v * rn / rsg * (1 - p - n) + v * (p + n) - v * (rn / rsg)) with (v * (1 - rn / rsg) * (p + n)) by (field; lra). rewrite Rabs_mult. rewrite (Rabs_right (p + n)) by lra. apply Rmult_le_compat_l; [apply Rabs_pos|assumption].
  - replace (v * rn / rsg * (2 - p - n) + v * (p + n) - 2 * (v * (rn / rsg))) with (v * (1 - rn / rsg) * (p + n)) by (field; lra). rewrite Rabs_mult. rewrite (Rabs_right (p + n)) by lra. apply Rmult_le_compat_l; [apply Rabs_pos|assumption].
Qed.
Lemma exp_above v vgap rn rsg agap m y : 0 < vgap -> 0 < rn -> 0 < rsg -> 0 < agap -> 1 <= Rabs v -> exponential v vgap rn rsg agap m = Ok y ->
  (names_model m Fixed -> Rabs (y - v) <= Rabs (v * (1 - rn / rsg)) * exp (- (agap * vgap * (Rabs v - 1)))) /\
  (names_model m Original -> Rabs (y - (v + v * (rn / rsg))) <= Rabs (v * (1 - rn / rsg)) * exp (- (agap * vgap * (Rabs v - 1)))).
Proof.
  intros Hg Hr Hs Ha Hv H. destruct (exp_form v vgap rn rsg agap m y H Hg Hr Hs) as [F O]. pose proof (fermi_sum_above agap vgap v Hg Ha Hv) as T. unfold tail' in T. set (p := fermi (agap * (v * vgap + vgap))) in *. set (n := fermi (- (agap * (v * vgap - vgap)))) in *.
  split; intros K; [rewrite (F K)|rewrite (O K)].
  - replace (v * rn / rsg * (1 - p - n) + v * (p + n) - v) with (v * (1 - rn / rsg) * (p + n - 1)) by (field; lra). rewrite Rabs_mult. apply Rmult_le_compat_l; [apply Rabs_pos|assumption].
  - replace (v * rn / rsg * (2 - p - n) + v * (p + n) - (v + v * (rn / rsg))) with (v * (1 - rn / rsg) * (p + n - 1)) by (field; lra). rewrite Rabs_mult. apply Rmult_le_compat_l; [apply Rabs_pos|assumption].
Qed.

(** A quantity within C exp(-a c) of L tends to L. *)
Lemma squeeze (f : R -> R) L C c : 0 < c -> (forall a, 0 < a -> Rabs (f a - L) <= C * exp (- (a * c))) -> is_lim f p_infty L.
Proof.
  intros Hc H. apply is_lim_spec. intros eps. simpl.
  exists (Rmax 0 ((Rabs C + 1) / (eps * c))). intros a Ha.
  assert (a > 0) by (eapply Rle_lt_trans; [apply Rmax_l|exact Ha]). assert (A2 : (Rabs C + 1) / (eps * c) < a) by (eapply Rle_lt_trans; [apply Rmax_r|exact Ha]).
  specialize (H a). eapply Rle_lt_trans; [apply H; lra|].
  assert (He : 0 < eps) by apply cond_pos. assert (Hac : 0 < a * c) by (apply Rmult_lt_0_compat; lra).
  assert (X : exp (- (a * c)) <= / (a * c)).
  { rewrite exp_Ropp. apply Rinv_le_contravar; [assumption|]. pose proof (exp_ineq1 (a * c)). assert (a * c <> 0) by lra. specialize (H1 H2). lra. }
  apply Rle_lt_trans with ((Rabs C + 1) * / (a * c)).
  - apply Rle_trans with (Rabs C * exp (- (a * c))).
    + apply Rmult_le_compat_r; [left; apply exp_pos|apply Rle_abs].
    + apply Rmult_le_compat; [apply Rabs_pos|left; apply exp_pos|lra|assumption].
  - assert (A3 : (Rabs C + 1) < a * (eps * c)).
    { apply Rmult_lt_reg_r with (/ (eps * c)); [apply Rinv_0_lt_compat, Rmult_lt_0_compat; lra|]. rewrite Rmult_assoc, Rinv_r, Rmult_1_r; [exact A2|]. apply Rgt_not_eq, Rmult_lt_0_compat; lra. }
    apply Rmult_lt_reg_r with (a * c); [assumption|]. rewrite Rmult_assoc, Rinv_l by lra. lra.
Qed.

Lemma exp_lim v vgap rn rsg m : 0 < vgap -> 0 < rn -> 0 < rsg ->
  (Rabs v < 1 -> names_model m Fixed -> is_lim (fun a => result (exponential v vgap rn rsg a m)) p_infty (v * (rn / rsg))) /\
  (Rabs v < 1 -> names_model m Original -> is_lim (fun a => result (exponential v vgap rn rsg a m)) p_infty (2 * (v * (rn / rsg)))) /\
  (1 < Rabs v -> names_model m Fixed -> is_lim (fun a => result (exponential v vgap rn rsg a m)) p_infty v).
Proof.
  intros Hg Hr Hs. split; [|split]; intros Hv Hm.
  - apply (squeeze _ _ (Rabs (v * (1 - rn / rsg)) * 2) (vgap * (1 - Rabs v))); [apply Rmult_lt_0_compat; lra|]. intros a Ha.
    destruct (exp_ok v vgap rn rsg a m Fixed (Rgt_not_eq _ _ Hr) Hm) as [y E]. rewrite E. cbn [result].
    destruct (exp_below v vgap rn rsg a m y Hg Hr Hs Ha (Rlt_le _ _ Hv) E) as [F _]. specialize (F Hm). eapply Rle_trans; [exact F|]. right. rewrite <- (Rmult_assoc a), (Rmult_assoc (Rabs _)). reflexivity.
  - apply (squeeze _ _ (Rabs (v * (1 - rn / rsg)) * 2) (vgap * (1 - Rabs v))); [apply Rmult_lt_0_compat; lra|]. intros a Ha.
    destruct (exp_ok v vgap rn rsg a m Original (Rgt_not_eq _ _ Hr) Hm) as [y E]. rewrite E. cbn [result].
    destruct (exp_below v vgap rn rsg a m y Hg Hr Hs Ha (Rlt_le _ _ Hv) E) as [_ F]. specialize (F Hm). eapply Rle_trans; [exact F|]. right. rewrite <- (Rmult_assoc a), (Rmult_assoc (Rabs _)). reflexivity.
  - apply (squeeze _ _ (Rabs (v * (1 - rn / rsg))) (vgap * (Rabs v - 1))); [apply Rmult_lt_0_compat; lra|]. intros a Ha.
    destruct (exp_ok v vgap rn rsg a m Fixed (Rgt_not_eq _ _ Hr) Hm) as [y E]. rewrite E. cbn [result].
    destruct (exp_above v vgap rn rsg a m y Hg Hr Hs Ha (Rlt_le _ _ Hv) E) as [F _]. specialize (F Hm). rewrite <- (Rmult_assoc a). exact F.
Qed.

(** ** The statements of the property file *)
Lemma perfect_odd :
  (forall l l', perfect (AFloat l) = OFloats l' -> perfect (AFloat (map fopp l)) = OFloats (map fopp l')) /\
  (forall l l', perfect (AInt l) = OInts l' -> perfect (AInt (map Z.opp l)) = OInts (map Z.opp l')) /\
  (forall v y, value (perfect (SFloat (FV v))) = Some (FV y) -> value (perfect (SFloat (FV (- v)))) = Some (FV (- y))) /\
  (forall z y, value (perfect (SInt z)) = Some (FV y) -> value (perfect (SInt (- z))) = Some (FV (- y))) /\
  perfect (AFloat [FV 0]) = OFloats [FV 0].
Proof.
  split; [apply perfect_odd_array|]. split; [apply perfect_odd_int|]. split; [|split].
  - intros v y H. destruct (scalar_float v) as [y1 [E1 I1]], (scalar_float (- v)) as [y2 [E2 I2]]. rewrite E1 in H. injection H as <-. rewrite E2. do 2 f_equal. apply (ideal_unique (- v)); [assumption|now apply ideal_opp].
  - intros v y H. destruct (scalar_int v) as [y1 [E1 I1]], (scalar_int (- v)) as [y2 [E2 I2]]. rewrite E1 in H. injection H as <-. rewrite E2. do 2 f_equal. rewrite opp_IZR in I2. apply (ideal_unique (- IZR v)); [assumption|now apply ideal_opp].
  - destruct (perfect_fin 0) as [y [E [I _]]]. cbn [perfect map]. rewrite E, I; [reflexivity|]. rewrite Rabs_R0. lra.
Qed.
Lemma poly_odd_zero v k : polynomial (- v) k = - polynomial v k /\ polynomial 0 k = 0.
Proof. split; [apply poly_odd|apply poly_zero]. Qed.
Lemma exp_odd_zero v vgap rn rsg agap m y : exponential v vgap rn rsg agap m = Ok y ->
  exponential (- v) vgap rn rsg agap m = Ok (- y) /\ (v = 0 -> y = 0).
Proof. intros H. split; [rewrite exp_odd, H; reflexivity|]. intros ->. eapply exp_zero; eauto. Qed.
Lemma expanded_odd_zero v vgap rn rsg agap a0 ileak vnot inot anot ioff y :
  expanded v vgap rn rsg agap a0 ileak vnot inot anot ioff = Ok y ->
  expanded (- v) vgap rn rsg agap a0 ileak vnot inot anot ioff = Ok (- y) /\ (v = 0 -> y = 0).
Proof. intros H. split; [rewrite expanded_odd, H; reflexivity|]. intros ->. eapply expanded_zero; eauto. Qed.
Lemma exp_names v vgap rn rsg agap m : rn <> 0 ->
  ((exists y, exponential v vgap rn rsg agap m = Ok y) <-> names_model m Fixed \/ names_model m Original) /\
  (exponential v vgap rn rsg agap m = Err ValueError <-> ~ names_model m Fixed /\ ~ names_model m Original).
Proof.
  intros Hr. split; [|now apply exp_raises]. split.
  - intros [y E]. destruct (exp_raises v vgap rn rsg agap m Hr) as [_ B].
    destruct (string_dec (lower m) "fixed"); [left; apply names_model_iff; left; assumption|]. destruct (string_dec (lower m) "corrected"); [left; apply names_model_iff; right; assumption|].
    destruct (string_dec (lower m) "original"); [right; apply names_model_iff; assumption|]. rewrite B in E; [discriminate|]. rewrite !names_model_iff. tauto.
  - intros [H|H]; eapply exp_ok; eauto.
Qed.
Lemma exp_cases : names_model "Fixed" Fixed /\ names_model "CORRECTED" Fixed /\ names_model "original" Original /\
  (exists y, exponential (1 / 2) (28 / 10000) 14 300 40000 "fixed" = Ok y) /\
  (exists y, expanded (1 / 2) (28 / 10000) 14 500 40000 10000 (5 / 1000000) (285 / 100000) (1 / 100000) 20000 (1 / 100000) = Ok y) /\
  exponential (1 / 2) (28 / 10000) 14 300 40000 "rashid" = Err ValueError.
Proof.
  rewrite !names_model_iff. split; [left; reflexivity|]. split; [right; reflexivity|]. split; [reflexivity|].
  split; [apply (exp_ok _ _ _ _ _ _ Fixed); [lra|apply names_model_iff; left; reflexivity]|]. split; [apply expanded_ok; lra|].
  apply exp_raises; [lra|]. rewrite !names_model_iff. split; [intros [K|K]; discriminate|discriminate].
Qed.
Lemma ideal_values :
  (forall v, exists y, value (perfect (SFloat (FV v))) = Some (FV y) /\ ideal v y) /\
  (forall z, exists y, value (perfect (SInt z)) = Some (FV y) /\ ideal (IZR z) y) /\
  (forall l, exists ys, perfect (AFloat (map FV l)) = OFloats (map FV ys) /\ Forall2 ideal l ys) /\
  (forall l, Forall (fun z => z <> 1 /\ z <> -1)%Z l ->
     exists ys, perfect (AInt l) = OInts ys /\ Forall2 (fun v y => ideal (IZR v) (IZR y)) l ys).
Proof. exact (conj scalar_float (conj scalar_int (conj array_float array_int))). Qed.
Lemma ideal_function v : exists y, ideal v y /\ forall y', ideal v y' -> y' = y.
Proof. destruct (perfect_fin v) as [y [_ I]]. exists y. split; [assumption|]. intros y' I'. now apply (ideal_unique v). Qed.
Lemma perfect_infinite : perfect (AFloat [FPInf; FNInf; FNaN]) = OFloats [FPInf; FNInf; FNaN] /\
  perfect (SFloat FPInf) = OFloat FPInf /\ perfect (SFloat FNInf) = OFloat FNInf.
Proof. repeat split. Qed.
Lemma perfect_refuted : perfect (AInt [1]%Z) = OInts [0]%Z /\ ~ ideal 1 0 /\
  (forall x, perfect (SNumpy x) = ONone) /\ perfect (SFloat FNaN) = ONone.
Proof. split; [reflexivity|]. split; [|repeat split]. intros [_ [B _]]. rewrite Rabs_R1 in B. specialize (B eq_refl). lra. Qed.
Lemma kk_all :
  (forall v m, exists y, perfect_kk (KFloat v) m = KOVal y /\ perfect_kk (KFloat (- v)) m = KOVal y) /\
  (forall v m, Rabs v = 1 -> perfect_kk (KFloat v) m = KOVal m) /\
  (forall v m, Rabs v <> 1 -> perfect_kk (KFloat v) m = KOVal (- (2 + v * ln (Rabs ((v - 1) / (v + 1)))) / PI)) /\
  (forall l m ys, perfect_kk (KFloats l) m = KOArr ys -> Forall2 (fun v y => perfect_kk (KFloat v) m = KOVal y) l ys) /\
  (forall l m, perfect_kk (KInts l) m = perfect_kk (KFloats (map IZR l)) m) /\
  (forall z m, perfect_kk (KInt z) m = perfect_kk (KFloat (IZR z)) m).
Proof.
  split; [intros v m; exists (perfect_kk_elt m v); split; [reflexivity|]; cbn [perfect_kk]; now rewrite kk_even|].
  split; [intros v m E; cbn [perfect_kk]; now rewrite kk_gap|].
  split; [intros v m E; cbn [perfect_kk]; unfold perfect_kk_elt; rewrite Reqb_f by assumption; cbn [negb]; f_equal; field; apply PI_neq0|].
  split; [intros l m ys H; cbn [perfect_kk] in H; injection H as <-; induction l; constructor; auto|].
  split; [intros l m; cbn [perfect_kk]; now rewrite map_map|reflexivity].
Qed.
