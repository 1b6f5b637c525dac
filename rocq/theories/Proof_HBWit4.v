(** A junction whose current is linear in the voltage, and what a run does with it. *)
From Coq Require Import List ZArith Lia Bool Arith Reals Lra String.
From Coquelicot Require Import Complex.
From Verif Require Import Base Sums Round Bessel Model_QtCurrent Spec_QtCurrent Spec_QtApi Proof_QtCurrent Proof_QtCurrent2 Proof_QtSym
  Proof_QtApi Proof_QtApi2 Proof_QtWit Model_Circuit Proof_Circuit Model_HB Spec_HB Proof_HB Proof_HB2 Proof_HB3 Proof_HB4 Proof_HB5 Proof_HBWit Proof_HBWit2.
Import ListNotations.
Open Scope C_scope.

(** The first-order expansion of the Bessel functions. *)
Definition J_lin (n : nat) (x : R) : R := match n with O => 1%R | S O => (x / 2)%R | _ => 0%R end.

Lemma ac_one_tone_any b (g : Z -> C) f vb resp w : (/ 10000 < f)%R -> round4 w = round4 f ->
  current 1 [Tone b g] [f] vb resp w = coeff [Tone b g] [1%Z] (fun ks => resp (vb + dot ks [f])%R).
Proof.
  intros Hf Hw. unfold current. cbn [List.length]. rewrite csum_index_S. rewrite (Sums.csum_single (sym 1) 1%Z).
  - rewrite csum_index_0. cbn [dot]. replace (1 * f + 0)%R with f by ring. unfold same_freq. rewrite Hw.
    destruct (Req_EM_T _ _) as [_|N]; [reflexivity|now contradiction N].
  - apply sym_NoDup.
  - apply in_sym. simpl. lia.
  - intros a _ Ha. rewrite csum_index_0. cbn [dot]. unfold same_freq. destruct (Req_EM_T _ _) as [E|]; [|reflexivity].
    exfalso. apply Ha. apply (multiples_distinct f); [assumption|]. rewrite Rmult_1_l, <- Hw.
    rewrite Rplus_0_r in E. exact E.
Qed.

Definition lin_coef (v : C) (k : Z) : C :=
  if (k =? 0)%Z then RtoC 1 else if (k =? 1)%Z then Cconj v * RtoC (/ 2) else if (k =? -1)%Z then - v * RtoC (/ 2) else RtoC 0.

Lemma J_lin_coef v k : (- 1 <= k <= 1)%Z -> jacobi_anger J_lin (Cmod v) (angle v) k = lin_coef v k.
Proof.
  intros Hk. assert (Hk' : (k = -1 \/ k = 0 \/ k = 1)%Z) by lia. unfold jacobi_anger, lin_coef, besselZ, J_lin.
  assert (V := angle_polar v). unfold cis in V. set (m := Cmod v) in *. set (t := angle v) in *.
  destruct Hk' as [-> |[-> | ->]]; cbn [Z.ltb Z.eqb Z.compare Z.opp Z.to_nat Pos.eqb].
  - change (Pos.to_nat 1) with 1%nat. rewrite V. unfold cis. replace (- (-1 * t))%R with t by ring.
    unfold Cmult, Copp, RtoC; cbn [fst snd]. apply injective_projections; cbn [fst snd]; simpl; field.
  - replace (- (0 * t))%R with 0%R by ring. unfold cis. rewrite cos_0, sin_0. unfold Cmult, RtoC; cbn [fst snd]. apply injective_projections; cbn [fst snd]; ring.
  - change (Pos.to_nat 1) with 1%nat. rewrite V. unfold cis. replace (- (1 * t))%R with (- t)%R by ring. rewrite cos_neg, sin_neg.
    unfold Cmult, Cconj, RtoC; cbn [fst snd]. apply injective_projections; cbn [fst snd]; simpl; field.
Qed.

Lemma lin_current resp v : current_at J_lin (wit_cct 1) resp (NbInt 1) v 1 1 0 =
  coeff [Tone 1 (lin_coef (v 1%nat 1%nat 0%nat))] [1%Z] (fun ks => resp (0 + dot ks [1%R])%R).
Proof.
  unfold current_at, tones, freqs. cbn [q_num_f wit_cct seq map q_num_p q_freq q_vb Nat.sub nbtuple repeat nth].
  rewrite <- (ac_one_tone_any 1 _ 1 0 resp (1 * INR 1)) by (try lra; simpl; f_equal; ring).
  apply current_ext; [|reflexivity]. constructor; [|constructor]. split; [reflexivity|]. unfold tone_of. cbn [t_b t_C]. intros k Hk.
  rewrite phase_factor_1, cut_in by assumption. rewrite <- J_lin_coef by (simpl in Hk; lia). f_equal. simpl. field.
Qed.

Lemma lin_affine resp vt zt : affine_row J_lin (w1 vt zt) resp (NbInt 1) 1 1 0.
Proof.
  set (L := fun x => coeff [Tone 1 (lin_coef x)] [1%Z] (fun ks => resp (0 + dot ks [1%R])%R)).
  assert (E : forall x, L x = L (RtoC 1) * RtoC (Re x) + L Ci * RtoC (Im x)).
  { intros [x y]. unfold L, coeff. cbn [map forallb Z.eqb andb rs_sum t_b t_C]. change (sym 1) with [(-1)%Z; 0%Z; 1%Z]. cbn [csum dot].
    unfold cut. cbn [Z.add Z.opp Pos.add Z.pos_sub Z.abs Z.of_nat Pos.of_succ_nat Z.leb Z.compare Pos.compare Pos.compare_cont].
    unfold lin_coef. cbn [Z.eqb Pos.eqb].
    generalize (resp (0 + (IZR (-1) * 1 + 0))%R) (resp (0 + (IZR 0 * 1 + 0))%R) (resp (0 + (IZR 1 * 1 + 0))%R). intros [r1 s1] [r2 s2] [r3 s3].
    unfold Re, Im, Cmult, Cplus, Cconj, Copp, RtoC, Ci. cbn [fst snd]. apply injective_projections; cbn [fst snd]; field. }
  exists (RtoC 0), (fun _ _ => zt * L (RtoC 1)), (fun _ _ => zt * L Ci). intros v. cbn [h_zt w1 h_q q_num_f q_num_p wit_cct seq csum Nat.eqb andb].
  rewrite lin_current. fold (L (v 1%nat 1%nat 0%nat)). rewrite E. ring.
Qed.

(** The response is not ignored. *)
Lemma lin_not_constant : current_at J_lin (wit_cct 1) (fun x => (0, x)%R) (NbInt 1) (fun _ _ _ => RtoC 1) 1 1 0 = RtoC 1.
Proof.
  rewrite lin_current. unfold coeff. cbn [map forallb Z.eqb andb rs_sum t_b t_C]. change (sym 1) with [(-1)%Z; 0%Z; 1%Z]. cbn [csum dot].
    unfold cut. cbn [Z.add Z.opp Pos.add Z.pos_sub Z.abs Z.of_nat Pos.of_succ_nat Z.leb Z.compare Pos.compare Pos.compare_cont].
    unfold lin_coef. cbn [Z.eqb Pos.eqb]. 
    unfold Re, Im, Cmult, Cplus, Cconj, Copp, RtoC, Ci. cbn [fst snd]. apply injective_projections; cbn [fst snd]; field.
Qed.
