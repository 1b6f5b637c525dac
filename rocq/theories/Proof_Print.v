(** Proofs about the printed summaries. *)
From Coq Require Import List ZArith Bool Arith Reals Lra Lia String Ascii.
From Coquelicot Require Import Complex Rcomplements.
From Verif Require Import Base Round Model_QtCurrent Model_Circuit Spec_Circuit Proof_Circuit Proof_CircuitFile Model_Misc Spec_Misc Proof_Misc Model_Print Spec_Print.
Import ListNotations.
Open Scope R_scope.

(** ** Scientific notation *)
Lemma ten_pos e : 0 < powerRZ 10 e. Proof. apply powerRZ_lt. lra. Qed.
Lemma ten_add a b : powerRZ 10 (a + b) = powerRZ 10 a * powerRZ 10 b. Proof. apply powerRZ_add. lra. Qed.
Lemma ten_nat d : powerRZ 10 (Z.of_nat d) = 10 ^ d. Proof. symmetry. apply pow_powerRZ. Qed.
Lemma exponent_spec x : x <> 0 -> powerRZ 10 (exponent10 x) <= Rabs x < powerRZ 10 (exponent10 x + 1).
Proof.
  intros Hx. assert (A : 0 < Rabs x) by (now apply Rabs_pos_lt). assert (L : 0 < ln 10) by (rewrite <- ln_1; apply ln_increasing; lra).
  unfold exponent10. destruct (base_Int_part (ln (Rabs x) / ln 10)) as [H1 H2]. set (e := Int_part _) in *.
  rewrite !powerRZ_Rpower by lra. unfold Rpower. rewrite <- (exp_ln (Rabs x)) at 1 2 by assumption.
  assert (E : ln (Rabs x) = ln (Rabs x) / ln 10 * ln 10) by (field; lra). split.
  - assert (IZR e * ln 10 <= ln (Rabs x)) by (rewrite E; apply Rmult_le_compat_r; lra). destruct H as [H|H]; [left; now apply exp_increasing|right; now rewrite H].
  - apply exp_increasing. rewrite E at 1. apply Rmult_lt_compat_r; [assumption|]. rewrite plus_IZR. lra.
Qed.
Lemma sci_parts_spec d x : x <> 0 -> let (n, e) := sci_parts d x in
  (10 ^ d <= n < 10 ^ (d + 1))%nat /\ Rabs (INR n * powerRZ 10 (e - Z.of_nat d) - Rabs x) <= Rabs x / (2 * 10 ^ d).
Proof.
  intros Hx. unfold sci_parts. unfold Reqb. destruct (Req_EM_T x 0); [contradiction|]. cbv zeta. destruct (exponent_spec x Hx) as [E1 E2]. set (e := exponent10 x) in *.
  set (y := Rabs x * powerRZ 10 (Z.of_nat d - e)).
  assert (P := ten_pos (Z.of_nat d - e)). assert (P2 := ten_pos (e - Z.of_nat d)).
  assert (Y1 : 10 ^ d <= y). { unfold y. rewrite <- ten_nat. replace (Z.of_nat d) with (e + (Z.of_nat d - e))%Z at 1 by lia. rewrite ten_add. apply Rmult_le_compat_r; lra. }
  assert (Y2 : y <= 10 ^ (d + 1)). { unfold y. rewrite <- ten_nat. replace (Z.of_nat (d + 1)) with ((e + 1) + (Z.of_nat d - e))%Z by lia. rewrite ten_add. apply Rmult_le_compat_r; lra. }
  assert (I : forall k, 10 ^ k = IZR (Z.of_nat (10 ^ k))) by (intros k; rewrite <- INR_IZR_INZ, pow_INR; f_equal; cbn; ring).
  assert (N1 : (Z.of_nat (10 ^ d) <= rint y)%Z) by (rewrite <- (rint_IZR (Z.of_nat (10 ^ d))), <- I; now apply rint_mono).
  assert (N2 : (rint y <= Z.of_nat (10 ^ (d + 1)))%Z) by (rewrite <- (rint_IZR (Z.of_nat (10 ^ (d + 1)))), <- I; now apply rint_mono).
  assert (V : INR (Z.to_nat (rint y)) = IZR (rint y)) by (rewrite INR_IZR_INZ, Z2Nat.id; [reflexivity|lia]).
  assert (B : Rabs (IZR (rint y) * powerRZ 10 (e - Z.of_nat d) - Rabs x) <= Rabs x / (2 * 10 ^ d)).
  { assert (X : Rabs x = y * powerRZ 10 (e - Z.of_nat d)). { unfold y. rewrite Rmult_assoc, <- ten_add. replace (Z.of_nat d - e + (e - Z.of_nat d))%Z with 0%Z by lia. cbn. ring. }
    replace (IZR (rint y) * powerRZ 10 (e - Z.of_nat d) - Rabs x) with ((IZR (rint y) - y) * powerRZ 10 (e - Z.of_nat d)) by (rewrite X; ring).
    rewrite Rabs_mult, (Rabs_pos_eq (powerRZ _ _)) by lra. apply Rle_trans with (/ 2 * powerRZ 10 (e - Z.of_nat d)); [apply Rmult_le_compat_r; [lra|apply rint_spec]|].
    assert (T : powerRZ 10 (e - Z.of_nat d) = powerRZ 10 e / 10 ^ d). { unfold Z.sub. rewrite ten_add, powerRZ_neg', ten_nat; reflexivity. }
    rewrite T. assert (D : 0 < 10 ^ d) by (apply pow_lt; lra). unfold Rdiv. rewrite Rinv_mult_distr by lra. replace (/ 2 * (powerRZ 10 e * / 10 ^ d)) with (powerRZ 10 e * (/ 2 * / 10 ^ d)) by ring.
    apply Rmult_le_compat_r; [|assumption]. apply Rmult_le_pos; [lra|]. left. now apply Rinv_0_lt_compat. }
  destruct (Nat.eqb_spec (Z.to_nat (rint y)) (10 ^ (d + 1))) as [C|C].
  - split; [split; [apply le_n|]|].
    + apply Nat.pow_lt_mono_r; lia.
    + assert (Q : IZR (rint y) = 10 ^ (d + 1)) by (rewrite <- V, C, pow_INR; f_equal; cbn; ring). rewrite Q in B.
      replace (INR (10 ^ d) * powerRZ 10 (e + 1 - Z.of_nat d)) with (10 ^ (d + 1) * powerRZ 10 (e - Z.of_nat d)); [assumption|].
      replace (e + 1 - Z.of_nat d)%Z with (1 + (e - Z.of_nat d))%Z by lia. rewrite ten_add, pow_INR, pow_add. replace (INR 10) with 10 by (cbn; ring). rewrite powerRZ_1. rewrite pow_1. ring.
  - split; [split; lia|]. now rewrite V.
Qed.
Lemma digits_len1 n : (n < 10)%nat -> String.length (digits n) = 1%nat.
Proof. intros H. unfold digits. cbn [digits_aux]. destruct (Nat.ltb_spec n 10); [reflexivity|lia]. Qed.
Lemma digits_nonempty n : (1 <= String.length (digits n))%nat.
Proof. destruct (digits_read (S n) n (Nat.lt_succ_diag_r n)) as [_ H]. fold (digits n) in H. destruct (digits n); [contradiction|cbn; lia]. Qed.
Lemma digits_len2 n : (10 <= n)%nat -> (2 <= String.length (digits n))%nat.
Proof.
  intros H. unfold digits. cbn [digits_aux]. destruct (Nat.ltb_spec n 10); [lia|]. rewrite length_app. cbn [digit String.length].
  assert (n <> 0)%nat by lia. destruct (digits_read n (n / 10)) as [_ N]; [apply Nat.div_lt; lia|]. destruct (digits_aux n (n / 10)); [contradiction|cbn; lia].
Qed.
Lemma digits_val n : read_digits 0 (digits n) = Some n.
Proof. apply (digits_read (S n) n (Nat.lt_succ_diag_r n)). Qed.
Lemma exponent_text k : let s := ((if (k <? 10)%nat then "0" else "") ++ digits k)%string in read_digits 0 s = Some k /\ (2 <= String.length s)%nat.
Proof.
  cbv zeta. destruct (Nat.ltb_spec k 10) as [L|L].
  - cbn [append]. split; [exact (digits_val k)|]. cbn [String.length]. rewrite digits_len1 by assumption. lia.
  - cbn [append]. split; [apply digits_val|now apply digits_len2].
Qed.
Lemma sci_sign (plus : bool) x s : s = (if Rltb x 0 then "-" else if plus then "+" else "")%string -> s = "-"%string /\ x < 0 \/ (s = ""%string \/ s = "+"%string) /\ 0 <= x.
Proof. intros ->. apply sign_cases. Qed.
Lemma sci_ok plus letter d x : sci_near letter d (sci plus letter d x) x.
Proof.
  unfold sci_near. assert (D : 0 < 10 ^ d) by (apply pow_lt; lra).
  destruct (sci_parts d x) as [n e] eqn:S.
  set (v := INR n * powerRZ 10 (e - Z.of_nat d)).
  assert (H : (n < 10 ^ (d + 1))%nat /\ Rabs (v - Rabs x) <= Rabs x / (2 * 10 ^ d)).
  { destruct (Req_dec x 0) as [X|X].
    - unfold sci_parts in S. unfold Reqb in S. destruct (Req_EM_T x 0); [|contradiction]. injection S as <- <-. split; [apply Nat.neq_0_lt_0, Nat.pow_nonzero; lia|].
      unfold v. subst x. cbn [INR]. rewrite Rmult_0_l, Rabs_R0, Rminus_0_r, Rabs_R0. unfold Rdiv. rewrite Rmult_0_l. lra.
    - pose proof (sci_parts_spec d x X) as H. rewrite S in H. destruct H as [[_ H1] H2]. now split. }
  destruct H as [Hn Hv].
  exists (if Rltb x 0 then - v else v). split.
  - unfold sci. rewrite S. set (sg := (if Rltb x 0 then "-" else if plus then "+" else "")%string). destruct (exponent_text (Z.to_nat (Z.abs e))) as [K1 K2].
    eexists sg, (digits (n / 10 ^ d)), (last_digits d n), (if (e <? 0)%Z then "-" else "+")%string, _, (n / 10 ^ d)%nat, (n mod 10 ^ d)%nat, (Z.to_nat (Z.abs e)).
    split; [reflexivity|]. split; [apply digits_val|]. split; [apply digits_len1; apply Nat.div_lt_upper_bound; [apply Nat.pow_nonzero; lia|]; rewrite Nat.add_1_r, Nat.pow_succ_r' in Hn; lia|].
    split; [apply last_read|]. split; [exact K1|]. split; [exact K2|]. split; [destruct (e <? 0)%Z; auto|]. cbv zeta. rewrite last_length.
    assert (V : v = (INR (n / 10 ^ d) + INR (n mod 10 ^ d) / 10 ^ d) * powerRZ 10 (if String.eqb (if (e <? 0)%Z then "-" else "+") "-" then - Z.of_nat (Z.to_nat (Z.abs e)) else Z.of_nat (Z.to_nat (Z.abs e)))).
    { replace (if String.eqb _ _ then _ else _)%Z with e by (destruct (Z.ltb_spec e 0); cbn [String.eqb Ascii.eqb Bool.eqb]; rewrite Z2Nat.id by lia; lia).
      unfold v. unfold Z.sub. rewrite ten_add, powerRZ_neg', ten_nat. rewrite (Nat.div_mod n (10 ^ d)) at 1 by (apply Nat.pow_nonzero; lia). rewrite plus_INR, mult_INR, pow_INR. replace (INR 10) with 10 by (cbn; ring). field. lra. }
    rewrite <- V. destruct (sci_sign plus x sg eq_refl) as [[E L]|[E L]].
    + right. split; [assumption|]. destruct (Rltb_spec x 0); [reflexivity|lra].
    + left. split; [assumption|]. destruct (Rltb_spec x 0); [lra|reflexivity].
  - destruct (Rltb_spec x 0) as [L|L].
    + rewrite (Rabs_left x) in * by assumption. replace (- v - x) with (- (v - - x)) by ring. now rewrite Rabs_Ropp.
    + rewrite (Rabs_pos_eq x) in * by lra. assumption.
Qed.
Lemma fixed_plus_sign d x : exists sign b, fixed true 0 d x = (sign ++ b)%string /\ (sign = "+" \/ sign = "-")%string.
Proof. unfold fixed. cbn [pad_left Nat.sub times_nat append]. destruct (Rltb x 0); eexists _, _; (split; [reflexivity|auto]). Qed.
Lemma sci_plus_sign letter d x : exists sign b, sci true letter d x = (sign ++ b)%string /\ (sign = "+" \/ sign = "-")%string.
Proof. unfold sci. destruct (sci_parts d x) as [n e]. destruct (Rltb x 0); eexists _, _; (split; [reflexivity|auto]). Qed.
Lemma fixed_complex_ok d (z : C) : complex_text (fixed_complex d z) (round_dec d (fst z), round_dec d (snd z)).
Proof.
  unfold fixed_complex, Re, Im. destruct (fixed_plus_sign d (snd z)) as (sg & b & E & S). exists (fixed false 0 d (fst z)), sg, b. rewrite E, app_assoc_s. split; [reflexivity|]. split; [assumption|].
  split; [apply fixed_denotes|]. cbn [fst snd]. rewrite <- E. apply fixed_denotes.
Qed.
Lemma sci_complex_ok letter d (z : C) : sci_complex_near letter d (sci_complex letter d z) z.
Proof.
  unfold sci_complex, Re, Im. destruct (sci_plus_sign letter d (snd z)) as (sg & b & E & S). exists (sci false letter d (fst z)), sg, b. rewrite E, app_assoc_s. split; [reflexivity|]. split; [assumption|].
  split; [apply sci_ok|]. rewrite <- E. apply sci_ok.
Qed.
Lemma times_length n : String.length (times_nat " " n) = n.
Proof. induction n as [|n IH]; [reflexivity|]. cbn. now rewrite IH. Qed.
Lemma pad_right_ok w s : fills w s (pad_right w s).
Proof.
  unfold fills, pad_right. exists (times_nat " " (w - String.length s)). rewrite length_app, times_length. split; [rewrite times_many; apply many_blank|]. split; [reflexivity|]. split; [lia|].
  intros H. destruct (w - String.length s)%nat eqn:E; [now contradiction H|]. lia.
Qed.
Lemma tabs1 : tabs 1 = Model_Misc.tab. Proof. reflexivity. Qed.
Lemma tabs2 : tabs 2 = (Model_Misc.tab ++ Model_Misc.tab)%string. Proof. reflexivity. Qed.
Lemma pvale_real_ok name x units comment : exists n bl num u, pvale_real name x units comment = (tabs 1 ++ n ++ " = " ++ bl ++ num ++ u ++ (if String.eqb comment "" then "" else tabs 2 ++ "# " ++ comment))%string /\
  fills 15 name n /\ blank bl /\ sci_near "e" 1 num x /\ fills 15 (if String.eqb units "" then "" else tabs 2 ++ "[" ++ units ++ "]")%string u.
Proof.
  unfold pvale_real. exists (pad_right 15 name), (many " " (7 - String.length (sci false "e" 1 x))), (sci false "e" 1 x), (pad_right 15 (if String.eqb units "" then "" else tabs 2 ++ "[" ++ units ++ "]")%string). split; [|split; [apply pad_right_ok|split; [apply many_blank|split; [apply sci_ok|]]]].
  - rewrite tabs1, tabs2. unfold pad_left, pvale_comment. rewrite <- times_many. repeat rewrite app_assoc_s. reflexivity.
  - apply pad_right_ok.
Qed.
Lemma pvale_complex_ok name z units comment : exists n bl num u, pvale_complex name z units comment = (tabs 1 ++ n ++ " = " ++ bl ++ num ++ u ++ (if String.eqb comment "" then "" else tabs 2 ++ "# " ++ comment))%string /\
  fills 15 name n /\ blank bl /\ sci_complex_near "e" 1 num z /\ fills 15 (if String.eqb units "" then "" else tabs 1 ++ "[" ++ units ++ "]")%string u.
Proof.
  unfold pvale_complex. exists (pad_right 15 name), (many " " (7 - String.length (sci_complex "e" 1 z))), (sci_complex "e" 1 z), (pad_right 15 (if String.eqb units "" then "" else tabs 1 ++ "[" ++ units ++ "]")%string). split; [|split; [apply pad_right_ok|split; [apply many_blank|split; [apply sci_complex_ok|]]]].
  - rewrite tabs1, tabs2. unfold pad_left, pvale_comment. rewrite <- times_many. repeat rewrite app_assoc_s. reflexivity.
  - apply pad_right_ok.
Qed.
