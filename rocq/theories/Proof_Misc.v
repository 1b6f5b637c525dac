(** Proofs about terminal output. *)
From Coq Require Import List ZArith Bool Arith Reals Lra Lia String Ascii.
From Coquelicot Require Import Complex Rcomplements.
From Verif Require Import Base Round Model_QtCurrent Model_Misc Spec_Misc Proof_Circuit Proof_IVModels.
Import ListNotations.
Open Scope string_scope.

Lemma app_assoc_s (a b c : string) : (a ++ b) ++ c = a ++ b ++ c.
Proof. induction a as [|x a IH]; cbn; [reflexivity|]. now rewrite IH. Qed.
Lemma app_nil_s (a : string) : a ++ "" = a.
Proof. induction a as [|x a IH]; cbn; [reflexivity|]. now rewrite IH. Qed.
Lemma length_app (a b : string) : String.length (a ++ b) = (String.length a + String.length b)%nat.
Proof. induction a as [|x a IH]; cbn; [reflexivity|]. now rewrite IH. Qed.
Lemma times_many c n : times_nat (String c "") n = many c n.
Proof. induction n as [|n IH]; [reflexivity|]. cbn [times_nat many]. rewrite IH. reflexivity. Qed.
Lemma many_length c n : String.length (many c n) = n.
Proof. induction n as [|n IH]; [reflexivity|]. cbn. now rewrite IH. Qed.
Lemma many_blank n : blank (many " " n).
Proof. induction n as [|n IH]; cbn; auto. Qed.

(** ** Digits *)
Lemma read_app a b acc : read_digits acc (a ++ b) = match read_digits acc a with Some n => read_digits n b | None => None end.
Proof.
  revert acc. induction a as [|c a IH]; intros acc; [reflexivity|]. cbn [append read_digits]. cbv zeta. destruct (Nat.leb 48 (nat_of_ascii c) && Nat.leb (nat_of_ascii c) 57); [apply IH|reflexivity].
Qed.
Lemma read_digit acc n : (n < 10)%nat -> read_digits acc (digit n) = Some (10 * acc + n)%nat.
Proof.
  intros H. unfold digit. cbn [read_digits]. cbv zeta. rewrite nat_ascii_embedding by lia. destruct (Nat.leb_spec 48 (48 + n)); [|lia]. destruct (Nat.leb_spec (48 + n) 57); [|lia]. cbn [andb]. f_equal. lia.
Qed.
Lemma digits_read fuel n : (n < fuel)%nat -> read_digits 0 (digits_aux fuel n) = Some n /\ digits_aux fuel n <> "".
Proof.
  revert n. induction fuel as [|fuel IH]; intros n H; [lia|]. cbn [digits_aux]. destruct (Nat.ltb_spec n 10) as [L|G].
  - split; [now rewrite read_digit|discriminate].
  - destruct (IH (n / 10)%nat) as [I1 I2]; [apply Nat.div_lt_upper_bound; lia|]. split.
    + rewrite read_app, I1. rewrite read_digit by (apply Nat.mod_upper_bound; lia). f_equal. symmetry. apply Nat.div_mod. lia.
    + destruct (digits_aux fuel (n / 10)); [contradiction|discriminate].
Qed.
Lemma last_length d n : String.length (last_digits d n) = d.
Proof. revert n. induction d as [|d IH]; intros n; [reflexivity|]. cbn [last_digits]. rewrite length_app, IH. cbn. lia. Qed.
Lemma last_read d n : read_digits 0 (last_digits d n) = Some (n mod 10 ^ d)%nat.
Proof.
  revert n. induction d as [|d IH]; intros n; cbn [last_digits]; [now rewrite Nat.mod_1_r|]. rewrite read_app, IH, read_digit by (apply Nat.mod_upper_bound; lia). f_equal.
  rewrite Nat.pow_succ_r'. rewrite Nat.mod_mul_r by (try apply Nat.pow_nonzero; lia). lia.
Qed.

(** ** Numbers *)
Open Scope R_scope.
Lemma sign_cases plus x : (if Rltb x 0 then "-" else if plus : bool then "+" else "")%string = "-"%string /\ x < 0 \/
  ((if Rltb x 0 then "-" else if plus : bool then "+" else "")%string = ""%string \/ (if Rltb x 0 then "-" else if plus : bool then "+" else "")%string = "+"%string) /\ 0 <= x.
Proof. destruct (Rltb_spec x 0); [left; auto|right]. split; [destruct plus; auto|lra]. Qed.
Lemma rint_nonneg x : 0 <= x -> (0 <= rint x)%Z.
Proof. intros H. rewrite <- (rint_IZR 0). now apply rint_mono. Qed.
Theorem fixed_denotes plus w d x : denotes (fixed plus w d x) (round_dec d x).
Proof.
  unfold fixed. set (n := Z.to_nat (rint (Rabs x * 10 ^ d))). set (sg := (if Rltb x 0 then "-" else if plus then "+" else "")%string). unfold pad_left. change " "%string with (String " " ""). rewrite times_many.
  destruct (digits_read (S (n / 10 ^ d)) (n / 10 ^ d)%nat) as [R1 R2]; [lia|]. fold (digits (n / 10 ^ d)) in R1, R2.
  eexists (many " " _), sg, (digits (n / 10 ^ d)), (last_digits d n), (n / 10 ^ d)%nat, (n mod 10 ^ d)%nat.
  split; [reflexivity|]. split; [apply many_blank|]. split; [assumption|]. split; [apply last_read|]. split; [assumption|]. rewrite last_length. cbv zeta.
  assert (P : 0 < 10 ^ d) by (apply pow_lt; lra).
  assert (V : INR (n / 10 ^ d) + INR (n mod 10 ^ d) / 10 ^ d = round_dec d (Rabs x)).
  { unfold round_dec. assert (E : IZR (rint (Rabs x * 10 ^ d)) = INR n) by (unfold n; rewrite INR_IZR_INZ, Z2Nat.id; [reflexivity|apply rint_nonneg, Rmult_le_pos; [apply Rabs_pos|lra]]). rewrite E.
    rewrite (Nat.div_mod n (10 ^ d)) at 3 by (apply Nat.pow_nonzero; lia). rewrite plus_INR, mult_INR, pow_INR. replace (INR 10) with 10 by (cbn; ring). field. lra. }
  rewrite V. destruct (sign_cases plus x) as [[E L]|[E L]]; fold sg in E.
  - right. split; [assumption|]. unfold round_dec. rewrite Rabs_left by assumption. replace (- x * 10 ^ d) with (- (x * 10 ^ d)) by ring. rewrite rint_opp, opp_IZR. field. lra.
  - left. split; [assumption|]. now rewrite Rabs_pos_eq.
Qed.
Lemma round_dec_opp d x : round_dec d (- x) = - round_dec d x.
Proof. unfold round_dec. replace (- x * 10 ^ d) with (- (x * 10 ^ d)) by ring. rewrite rint_opp, opp_IZR. field. apply pow_nonzero. lra. Qed.

Theorem printc_nonneg (z : C) : 0 <= snd z -> complex_denotes (printc z) (round_dec 2 (fst z), round_dec 2 (snd z)).
Proof.
  intros H. unfold printc, Re, Im. destruct (Rleb_spec 0 (snd z)); [|lra].
  eexists _, "+"%string, _, _, _. split; [reflexivity|]. split; [apply fixed_denotes|]. split; [apply fixed_denotes|]. left. auto.
Qed.
Theorem printc_negative (z : C) : snd z < 0 -> complex_denotes (printc z) (round_dec 2 (fst z), - round_dec 2 (snd z)).
Proof.
  intros H. unfold printc, Re, Im. destruct (Rleb_spec 0 (snd z)); [lra|].
  eexists _, "-"%string, _, _, _. split; [reflexivity|]. split; [apply fixed_denotes|]. split; [apply fixed_denotes|]. right. auto.
Qed.
Lemma pvalf_tail_fields units comment : pvalf_tail units comment = (unit_field units ++ many " " (15 - String.length (unit_field units)) ++ comment_field comment)%string.
Proof.
  unfold pvalf_tail, pad_right. change " "%string with (String " " ""). rewrite times_many. replace (if String.eqb units "" then ""%string else (tab ++ "[" ++ units ++ "]")%string) with (unit_field units) by (destruct units; reflexivity).
  replace (if String.eqb comment "" then ""%string else ("  # " ++ comment)%string) with (comment_field comment) by (destruct comment; reflexivity). now rewrite app_assoc_s.
Qed.
Theorem pvalf_denotes name (z : C) units comment : exists num,
  pvalf_complex name z units comment = (tabulator ++ name ++ many " " (15 - String.length name) ++ " = " ++ num ++ unit_field units ++ many " " (15 - String.length (unit_field units)) ++ comment_field comment)%string /\
  complex_denotes num (round_dec 3 (fst z), round_dec 3 (snd z)).
Proof.
  unfold pvalf_complex. exists (fixed false 7 3 (Re z) ++ (if Rltb (Im z) 0 then " - j" else " + j") ++ fixed false 7 3 (Rabs (Im z)))%string.
  split. { rewrite pvalf_tail_fields. unfold pad_right. change " "%string with (String " " "") at 1. rewrite times_many, !app_assoc_s. reflexivity. } unfold Re, Im. destruct (Rltb_spec (snd z) 0) as [L|L].
  - exists (fixed false 7 3 (fst z)), "-"%string, (fixed false 7 3 (Rabs (snd z))), (round_dec 3 (fst z)), (round_dec 3 (Rabs (snd z))). split; [reflexivity|]. split; [apply fixed_denotes|]. split; [apply fixed_denotes|]. right. split; [reflexivity|]. rewrite Rabs_left by assumption. rewrite round_dec_opp. f_equal. ring.
  - exists (fixed false 7 3 (fst z)), "+"%string, (fixed false 7 3 (Rabs (snd z))), (round_dec 3 (fst z)), (round_dec 3 (Rabs (snd z))). split; [reflexivity|]. split; [apply fixed_denotes|]. split; [apply fixed_denotes|]. left. split; [reflexivity|]. rewrite Rabs_pos_eq by lra. reflexivity.
Qed.
Theorem pvalf_real_denotes name (x : R) units comment : exists num,
  pvalf_real name x units comment = (tabulator ++ name ++ many " " (15 - String.length name) ++ " = " ++ num ++ tabulator ++ unit_field units ++ many " " (15 - String.length (unit_field units)) ++ comment_field comment)%string /\
  denotes num (round_dec 3 x).
Proof.
  unfold pvalf_real. exists (fixed false 7 3 x). split; [|apply fixed_denotes]. rewrite pvalf_tail_fields. unfold pad_right. change " "%string with (String " " "") at 1. rewrite times_many, !app_assoc_s. reflexivity.
Qed.

Lemma fixed_int plus w k : fixed plus w 2 (IZR k) = pad_left w ((if (k <? 0)%Z then "-" else if plus then "+" else "") ++ digits (Z.to_nat (Z.abs k)) ++ ".00")%string.
Proof.
  unfold fixed. rewrite <- abs_IZR. replace (IZR (Z.abs k) * 10 ^ 2) with (IZR (Z.abs k * 100)) by (rewrite mult_IZR; ring). rewrite rint_IZR.
  replace (Z.to_nat (Z.abs k * 100)) with (Z.to_nat (Z.abs k) * 10 ^ 2)%nat by (cbn [Nat.pow]; lia). rewrite Nat.div_mul by (cbn; lia).
  replace (Rltb (IZR k) 0) with (k <? 0)%Z by (destruct (Rltb_spec (IZR k) 0) as [L|L]; destruct (Z.ltb_spec k 0) as [M|M]; try reflexivity; [apply lt_IZR in L; lia|apply IZR_lt in M; lra]).
  repeat f_equal. set (m := Z.to_nat (Z.abs k)). cbn [last_digits].
  replace (m * 10 ^ 2)%nat with ((m * 10) * 10)%nat by (cbn; lia). rewrite Nat.div_mul, !Nat.mod_mul by lia. reflexivity.
Qed.
Theorem printc_case : printc (1, -2) = " +1.00 - j-2.00"%string.
Proof. unfold printc, Re, Im. cbn [fst snd]. destruct (Rleb_spec 0 (-2)); [lra|]. rewrite !fixed_int. reflexivity. Qed.

(** ** Progress bar *)
Theorem bar_width show it total pre suf d len : (0 < total)%Z -> (0 <= it <= total)%Z -> (0 <= len)%Z -> exists n text,
  progress_bar show it total pre suf d len = Ok (carriage_return ++ pre ++ " |" ++ (many "-" n ++ many " " (Z.to_nat len - n)) ++ "| " ++ text ++ "% " ++ suf ++ (if (it =? total)%Z then newline else ""))%string /\
  (n <= Z.to_nat len)%nat /\ Rabs (INR n - IZR len * (IZR it / IZR total)) <= 1 / 2 /\ (it = total -> n = Z.to_nat len) /\ (it = 0%Z -> n = 0%nat) /\
  exists p, text = show p /\ Rabs (p - 100 * IZR it / IZR total) <= / 2 / 10 ^ d.
Proof.
  intros T I L. unfold progress_bar. destruct (Z.eqb_spec total 0); [lia|]. assert (PT : 0 < IZR total) by now apply IZR_lt.
  set (f := rint (IZR (len * it) / IZR total)).
  assert (X : IZR (len * it) / IZR total = IZR len * (IZR it / IZR total)) by (rewrite mult_IZR; unfold Rdiv; ring).
  assert (B : 0 <= IZR (len * it) / IZR total <= IZR len).
  { assert (0 <= IZR (len * it)) by (apply IZR_le; nia). split; [apply Rmult_le_pos; [assumption|left; now apply Rinv_0_lt_compat]|]. apply Rle_div_l; [assumption|]. rewrite <- mult_IZR. apply IZR_le. nia. }
  assert (F : (0 <= f <= len)%Z) by (split; [apply rint_nonneg, B|rewrite <- (rint_IZR len); apply rint_mono, B]).
  exists (Z.to_nat f), (show (round_dec d (100 * (IZR it / IZR total)))). split.
  - f_equal. unfold times. change "-"%string with (String "-" ""). change " "%string with (String " " ""). rewrite !times_many. replace (Z.to_nat (len - f)) with (Z.to_nat len - Z.to_nat f)%nat by lia.
    destruct (it =? total)%Z; unfold carriage_return; repeat (progress (rewrite ?app_assoc_s, ?app_nil_s; cbn [append])); reflexivity.
  - split; [lia|]. split; [rewrite INR_IZR_INZ, Z2Nat.id by lia; rewrite <- X; pose proof (rint_spec (IZR (len * it) / IZR total)) as S; fold f in S; lra|]. split; [|split].
    + intros ->. replace f with len; [reflexivity|]. symmetry. unfold f. rewrite X. replace (IZR len * (IZR total / IZR total)) with (IZR len) by (field; lra). apply rint_IZR.
    + intros ->. replace f with 0%Z; [reflexivity|]. symmetry. unfold f. rewrite X. replace (IZR len * (0 / IZR total)) with (IZR 0) by (field; lra). apply rint_IZR.
    + eexists. split; [reflexivity|]. unfold round_dec. assert (P : 0 < 10 ^ d) by (apply pow_lt; lra). set (y := 100 * (IZR it / IZR total)). replace (100 * IZR it / IZR total) with y by (unfold y, Rdiv; ring).
      replace (IZR (rint (y * 10 ^ d)) / 10 ^ d - y) with ((IZR (rint (y * 10 ^ d)) - y * 10 ^ d) * / 10 ^ d) by (field; lra). rewrite Rabs_mult, (Rabs_pos_eq (/ 10 ^ d)) by (left; now apply Rinv_0_lt_compat). apply Rmult_le_compat_r; [left; now apply Rinv_0_lt_compat|apply rint_spec].
Qed.
Lemma bar_zero show it pre suf d len : progress_bar show it 0 pre suf d len = Err ZeroDivisionError.
Proof. reflexivity. Qed.
(** Longer than the bar. *)
Lemma bar_overflow show pre suf : exists text, progress_bar show 3 2 pre suf 2 20 = Ok (carriage_return ++ pre ++ " |" ++ many "-" 30 ++ "| " ++ text ++ "% " ++ suf)%string.
Proof.
  eexists. unfold progress_bar. cbn [Z.eqb Pos.eqb]. replace (IZR (20 * 3) / IZR 2) with (IZR 30) by (rewrite mult_IZR; field). rewrite rint_IZR. f_equal.
Qed.

(** ** Titles *)
Theorem title_width text total : exists l r, title_text text total = (many "*" l ++ " " ++ text ++ " " ++ many "*" r ++ newline)%string /\
  (l <= r <= S l)%nat /\ Z.of_nat (l + 1 + String.length text + 1 + r) = Z.max total (Z.of_nat (String.length text) + 2).
Proof.
  unfold title_text. set (m := (total - Z.of_nat (String.length text) - 2)%Z). set (rt := if (m mod 2 =? 0)%Z then (m / 2)%Z else (m / 2 + 1)%Z). exists (Z.to_nat (m / 2)), (Z.to_nat rt). split.
  - unfold times. change "*"%string with (String "*" ""). rewrite !times_many. now rewrite !app_assoc_s.
  - pose proof (Z.div_mod m 2 ltac:(lia)) as D. pose proof (Z.mod_pos_bound m 2 ltac:(lia)) as M. unfold rt. destruct (Z.eqb_spec (m mod 2) 0) as [E|E]; split; lia.
Qed.
Lemma upper_capital c : upper_char c = capital c.
Proof. destruct c as [[] [] [] [] [] [] [] []]; reflexivity. Qed.
Lemma upper_capitals s : upper s = in_capitals s.
Proof. induction s as [|c s IH]; [reflexivity|]. cbn [upper in_capitals]. now rewrite upper_capital, IH. Qed.
Lemma look_styles d k : lookup (map (fun p => (fst p, escape (snd p))) d) k = match find (fun p => String.eqb k (fst p)) d with Some p => Some (escape (snd p)) | None => None end.
Proof. induction d as [|[n v] d IH]; [reflexivity|]. cbn [map lookup find fst snd]. now destruct (String.eqb k n). Qed.
Theorem cprint_text colours text color : exists pre post, cprint colours text color = (pre ++ text ++ post)%string /\
  (match color with None => pre = ""%string /\ post = newline
   | Some c => (exists n, In (in_capitals c, n) styles /\ pre = escape_sequence n /\ post = (escape_sequence "0" ++ newline)%string) \/
               ((forall n, ~ In (in_capitals c, n) styles) /\ pre = ("'color' must be one of:" ++ newline ++ colours ++ newline)%string /\ post = (" " ++ c ++ newline)%string) end).
Proof.
  unfold cprint. destruct color as [c|]; [|exists ""%string, newline; auto]. rewrite upper_capitals. change terminal_colors with (map (fun p => (fst p, escape (snd p))) styles). rewrite look_styles.
  destruct (find (fun p => String.eqb (in_capitals c) (fst p)) styles) as [[k n]|] eqn:E.
  - apply find_some in E. destruct E as [I E]. cbn [fst] in E. apply String.eqb_eq in E. subst k. exists (escape n), (escape "0" ++ newline)%string. split; [now rewrite ?app_assoc_s|]. left. exists n. auto.
  - exists ("'color' must be one of:" ++ newline ++ colours ++ newline)%string, (" " ++ c ++ newline)%string. split; [now rewrite ?app_assoc_s|]. right. split; [|split; reflexivity]. intros n I. apply (find_none _ _ E) in I. cbn [fst] in I. now rewrite String.eqb_refl in I.
Qed.
