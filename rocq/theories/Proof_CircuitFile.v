(** Reading back what save_info wrote. *)
From Coq Require Import List ZArith Bool Ascii String Reals Lia Lra.
From Coquelicot Require Import Complex.
From Verif Require Import Base Round Model_QtCurrent Model_Circuit Model_CircuitFile Spec_Circuit Proof_Circuit Proof_Circuit2.
Import ListNotations.
Open Scope Z_scope.

(** ** Digits *)
Lemma nat_of_dig k : 0 <= k <= 9 -> nat_of_ascii (dig k) = (48 + Z.to_nat k)%nat.
Proof. intros H. unfold dig. apply nat_ascii_embedding. lia. Qed.

Lemma is_digit_dig k : 0 <= k <= 9 -> is_digit (dig k) = true.
Proof.
  intros H. unfold is_digit. rewrite nat_of_dig by assumption. apply andb_true_intro.
  split; apply Nat.leb_le; lia.
Qed.
Lemma digit_val_dig k : 0 <= k <= 9 -> digit_val (dig k) = k.
Proof. intros H. unfold digit_val. rewrite nat_of_dig by assumption. lia. Qed.

Lemma mod10 n : 0 <= n mod 10 <= 9.
Proof. pose proof (Z.mod_pos_bound n 10). lia. Qed.

Lemma value_snoc l a : value (l ++ [a]) = value l * 10 + digit_val a.
Proof. unfold value. rewrite fold_left_app. reflexivity. Qed.

Lemma digits_fuel_spec k : forall n, 0 <= n < Z.of_nat k ->
  value (digits_fuel k n) = n /\ forallb is_digit (digits_fuel k n) = true /\ digits_fuel k n <> [].
Proof.
  induction k as [|k IH]; intros n Hn; [lia|]. cbn [digits_fuel].
  assert (D := mod10 n). assert (E := Z.div_mod n 10). 
  split; [|split].
  - rewrite value_snoc, digit_val_dig by assumption. destruct (Z.ltb_spec n 10).
    + rewrite Z.mod_small by lia. reflexivity.
    + destruct (IH (n / 10)) as [I _]; [split; [apply Z.div_pos; lia|apply Z.div_lt_upper_bound; lia]|]. rewrite I. lia.
  - rewrite forallb_app. cbn [forallb]. rewrite is_digit_dig by assumption. rewrite !andb_true_r. destruct (Z.ltb_spec n 10); [reflexivity|].
    apply IH. split; [apply Z.div_pos; lia|apply Z.div_lt_upper_bound; lia].
  - destruct (if n <? 10 then [] else digits_fuel k (n / 10)); discriminate.
Qed.

Lemma digits_value n : 0 <= n -> value (digits n) = n.
Proof. intros H. apply digits_fuel_spec. lia. Qed.
Lemma digits_digit n : 0 <= n -> forallb is_digit (digits n) = true.
Proof. intros H. apply digits_fuel_spec. lia. Qed.
Lemma digits_nonempty n : 0 <= n -> digits n <> [].
Proof. intros H. apply digits_fuel_spec. lia. Qed.

Lemma pad_length d n : List.length (pad d n) = d.
Proof. revert n; induction d; intros n; simpl; [reflexivity|]. rewrite app_length, IHd. simpl. lia. Qed.
Lemma pad_digit d n : forallb is_digit (pad d n) = true.
Proof.
  revert n; induction d; intros n; cbn [pad]; [reflexivity|]. rewrite forallb_app, IHd. cbn [forallb]. now rewrite is_digit_dig by apply mod10.
Qed.
Lemma pad_value d n : 0 <= n -> value (pad d n) = n mod 10 ^ Z.of_nat d.
Proof.
  revert n; induction d; intros n Hn; cbn [pad].
  - rewrite Z.mod_1_r. reflexivity.
  - rewrite value_snoc, digit_val_dig by apply mod10. rewrite IHd by (apply Z.div_pos; lia).
    rewrite Nat2Z.inj_succ, Z.pow_succ_r by lia. rewrite (Z.rem_mul_r n 10) by lia. lia.
Qed.

Lemma parse_int_digits n : 0 <= n -> parse_int (digits n) = Ok n.
Proof.
  intros H. unfold parse_int. destruct (digits n) as [|a l] eqn:E; [now apply digits_nonempty in E|].
  rewrite <- E, digits_digit, digits_value by assumption. reflexivity.
Qed.

Lemma parse_int_pad d n : (1 <= d)%nat -> 0 <= n -> parse_int (pad d n) = Ok (n mod 10 ^ Z.of_nat d).
Proof.
  intros Hd H. unfold parse_int. pose proof (pad_length d n) as Ln. destruct (pad d n) as [|a l] eqn:E; [simpl in Ln; lia|].
  rewrite <- E, pad_digit, pad_value by assumption. reflexivity.
Qed.

Lemma span_all q l r : forallb q l = true -> match r with [] => True | a :: _ => q a = false end -> span q (l ++ r) = (l, r).
Proof.
  intros H Hr. induction l as [|a l IH]; simpl in *.
  - destruct r; [reflexivity|]. simpl. now rewrite Hr.
  - apply andb_true_iff in H as [H1 H2]. rewrite H1, IH by assumption. reflexivity.
Qed.
Lemma span_all_nil q l : forallb q l = true -> span q l = (l, []).
Proof. intros H. rewrite <- (app_nil_r l) at 1. now apply span_all. Qed.

(** ** Floats *)
Lemma pow_IZR_10 d : IZR (10 ^ Z.of_nat d) = (10 ^ d)%R.
Proof. symmetry. rewrite <- (pow_IZR 10 d). reflexivity. Qed.

Lemma rint_abs_nonneg x d : 0 <= rint (Rabs x * 10 ^ d).
Proof.
  rewrite <- (rint_IZR 0). apply rint_mono. apply Rmult_le_pos; [apply Rabs_pos|]. left. apply pow10_pos.
Qed.

Lemma parse_fmt_abs d x : (1 <= d)%nat -> parse_ufloat (fmt_abs d x) = Ok (round_dec d (Rabs x)).
Proof.
  intros Hd. unfold parse_ufloat, fmt_abs. set (n := rint (Rabs x * 10 ^ d)). assert (Hn : 0 <= n) by apply rint_abs_nonneg.
  assert (P : 0 < 10 ^ Z.of_nat d) by (apply Z.pow_pos_nonneg; lia).
  assert (Hq : 0 <= n / 10 ^ Z.of_nat d) by (apply Z.div_pos; lia).
  rewrite span_all; [|now apply digits_digit|reflexivity]. cbn [L list_ascii_of_string app].
  change (Ascii.eqb "." ".") with true. cbv iota. rewrite parse_int_digits by assumption. cbn [bind].
  rewrite parse_int_pad by assumption. cbn [bind]. rewrite pad_length. f_equal.
  unfold round_dec. fold n. f_equal. f_equal. rewrite (Z.mul_comm (n / _)). symmetry. apply Z.div_mod. lia.
Qed.

Lemma fmt_abs_chars d x : forallb is_numchar (fmt_abs d x) = true.
Proof.
  unfold fmt_abs. rewrite !forallb_app. set (n := rint _). assert (Hn : 0 <= n) by apply rint_abs_nonneg.
  assert (P : 0 < 10 ^ Z.of_nat d) by (apply Z.pow_pos_nonneg; lia).
  assert (K : forall l, forallb is_digit l = true -> forallb is_numchar l = true).
  { intros l H. rewrite forallb_forall in *. intros a Ha. unfold is_numchar. now rewrite H. }
  rewrite (K _ (pad_digit d n)), (K _ (digits_digit _ (Z.div_pos n _ Hn P))). reflexivity.
Qed.

Lemma fmt_abs_head d x : exists a l, fmt_abs d x = a :: l /\ is_digit a = true.
Proof.
  unfold fmt_abs. set (n := rint _). assert (Hn : 0 <= n) by apply rint_abs_nonneg.
  assert (P : 0 < 10 ^ Z.of_nat d) by (apply Z.pow_pos_nonneg; lia).
  assert (Hq : 0 <= n / 10 ^ Z.of_nat d) by (apply Z.div_pos; lia).
  pose proof (digits_digit _ Hq) as D. destruct (digits (n / 10 ^ Z.of_nat d)) as [|a l] eqn:E; [now apply digits_nonempty in E|].
  simpl in D. apply andb_true_iff in D as [D _]. exists a. eexists. split; [reflexivity|assumption].
Qed.

Lemma digit_no_sign a : is_digit a = true -> Ascii.eqb a "-" = false /\ Ascii.eqb a "+" = false.
Proof.
  intros H. split; apply Ascii.eqb_neq; intros ->; discriminate.
Qed.

Lemma take_sign_fmt d x r : take_sign (fmt d x ++ r) = ((if Rltb x 0 then -1 else 1)%R, fmt_abs d x ++ r).
Proof.
  unfold fmt. destruct (Rltb x 0); [reflexivity|]. cbn [app]. destruct (fmt_abs_head d x) as [a [l [E D]]]. rewrite E. cbn [app take_sign].
  destruct (digit_no_sign a D) as [-> ->]. reflexivity.
Qed.

Lemma signed_round d x : ((if Rltb x 0 then -1 else 1) * round_dec d (Rabs x))%R = round_dec d x.
Proof.
  destruct (Rltb_spec x 0) as [H|H].
  - rewrite Rabs_left, round_dec_opp by assumption. ring.
  - rewrite Rabs_right by lra. ring.
Qed.

Lemma parse_float_fmt d x : (1 <= d)%nat -> parse_float (fmt d x) = Ok (round_dec d x).
Proof.
  intros Hd. unfold parse_float. rewrite <- (app_nil_r (fmt d x)), take_sign_fmt, app_nil_r, parse_fmt_abs by assumption.
  cbn [bind]. now rewrite signed_round.
Qed.

Definition round_c (d : nat) (z : C) : C := (round_dec d (Re z), round_dec d (Im z)).

Lemma parse_complex_fmt d z : (1 <= d)%nat -> parse_complex (fmt_complex d z) = Ok (round_c d z).
Proof.
  intros Hd. unfold parse_complex, fmt_complex. rewrite take_sign_fmt.
  assert (S : forall b, is_sign b = true -> forall r, span is_numchar (fmt_abs d (Re z) ++ (b :: r)) = (fmt_abs d (Re z), b :: r)).
  { intros b Hb r. apply span_all; [apply fmt_abs_chars|]. unfold is_sign in Hb. apply orb_true_iff in Hb as [Hb|Hb];
    apply Ascii.eqb_eq in Hb; subst; reflexivity. }
  pose proof (signed_round d (Im z)) as SR. cbv iota beta.
  destruct (Rltb (Im z) 0); cbn [L list_ascii_of_string app]; (rewrite S by reflexivity); cbv iota beta;
    (rewrite parse_fmt_abs by assumption); cbn [bind is_sign orb]; change (is_sign "+") with true; change (is_sign "-") with true; cbv iota;
    cbn [take_sign]; (rewrite span_all; [|apply fmt_abs_chars|reflexivity]); cbv iota beta; (rewrite parse_fmt_abs by assumption);
    cbn; unfold round_c; rewrite signed_round, <- SR; reflexivity.
Qed.

Definition round_o (v : option C) : option C := match v with Some z => Some (round_c 4 z) | None => None end.

Lemma parse_cell_fmt v : parse_cell (fmt_cell 4 v) = Ok (round_o v).
Proof.
  unfold parse_cell, text_eqb. destruct v as [z|]; cbn [fmt_cell round_o]; [|reflexivity].
  destruct (list_eq_dec ascii_dec (fmt_complex 4 z) (L "nan+nanj")) as [E|_].
  - exfalso. pose proof (parse_complex_fmt 4 z) as P. rewrite E in P. discriminate (P ltac:(lia)).
  - rewrite parse_complex_fmt by lia. reflexivity.
Qed.

(** ** Lines and words *)
Definition no_nl (l : text) : Prop := forallb (fun a => negb (Ascii.eqb a nl)) l = true.

Lemma readlines_acc_line cur l r : no_nl l -> readlines_acc cur (l ++ nl :: r) = (rev cur ++ l ++ [nl]) :: readlines_acc [] r.
Proof.
  revert cur; induction l as [|a l IH]; intros cur H; simpl.
  - reflexivity.
  - unfold no_nl in H. simpl in H. apply andb_true_iff in H as [H1 H2]. apply negb_true_iff in H1. rewrite H1.
    rewrite IH by assumption. simpl. now rewrite <- app_assoc.
Qed.

Lemma readlines_concat ls : Forall (fun x => exists l, x = l ++ [nl] /\ no_nl l) ls -> readlines (List.concat ls) = ls.
Proof.
  induction ls as [|x ls IH]; intros H; [reflexivity|]. inversion H as [|? ? [l [-> Hl]] H']; subst. cbn [List.concat].
  unfold readlines. rewrite <- app_assoc. cbn [app]. rewrite readlines_acc_line by assumption. cbn [rev app]. f_equal. now apply IH.
Qed.

Definition word (w : text) : Prop := forallb (fun a => negb (is_space a)) w = true.
Definition blank (s : text) : Prop := s <> [] /\ forallb is_space s = true.

Lemma split_acc_word cur w r : word w -> split_acc cur (w ++ r) = split_acc (rev w ++ cur) r.
Proof.
  revert cur; induction w as [|a w IH]; intros cur H; [reflexivity|]. unfold word in H. simpl in H. apply andb_true_iff in H as [H1 H2].
  apply negb_true_iff in H1. cbn [app split_acc]. rewrite H1, IH by assumption. cbn [rev]. now rewrite <- app_assoc.
Qed.

Lemma split_acc_blank s r : forallb is_space s = true -> split_acc [] (s ++ r) = split_acc [] r.
Proof.
  induction s as [|a s IH]; intros H; [reflexivity|]. simpl in H. apply andb_true_iff in H as [H1 H2]. cbn [app split_acc]. rewrite H1. now apply IH.
Qed.

Lemma split_word_blank w s r : word w -> w <> [] -> blank s -> split_acc [] (w ++ s ++ r) = w :: split_acc [] r.
Proof.
  intros Hw Hn [Hs1 Hs]. rewrite split_acc_word by assumption. rewrite app_nil_r. destruct s as [|a s]; [congruence|].
  simpl in Hs. apply andb_true_iff in Hs as [H1 H2]. cbn [app split_acc]. rewrite H1.
  destruct (rev w) as [|b t] eqn:E; [apply (f_equal (@rev _)) in E; rewrite rev_involutive in E; simpl in E; congruence|].
  rewrite <- E, rev_involutive. f_equal. now apply split_acc_blank.
Qed.

Lemma digit_not_space a : is_digit a = true -> is_space a = false.
Proof.
  unfold is_digit, is_space. intros H. apply andb_true_iff in H as [H1 H2]. apply Nat.leb_le in H1, H2.
  apply orb_false_iff. split; apply andb_false_iff; right; apply Nat.leb_gt; lia.
Qed.
Lemma numchar_not_space a : is_numchar a = true -> is_space a = false.
Proof.
  unfold is_numchar. intros H. apply orb_true_iff in H as [H|H]; [now apply digit_not_space|]. apply Ascii.eqb_eq in H. subst. reflexivity.
Qed.
Lemma not_space_not_nl a : is_space a = false -> Ascii.eqb a nl = false.
Proof. intros H. apply Ascii.eqb_neq. intros ->. discriminate. Qed.

Lemma word_app a b : word a -> word b -> word (a ++ b).
Proof. unfold word. intros. rewrite forallb_app. now rewrite H, H0. Qed.
Lemma word_numchars l : forallb is_numchar l = true -> word l.
Proof. unfold word. rewrite !forallb_forall. intros H a Ha. rewrite numchar_not_space by now apply H. reflexivity. Qed.
Lemma word_digits n : 0 <= n -> word (digits n).
Proof. intros H. apply word_numchars. pose proof (digits_digit n H) as D. rewrite forallb_forall in *. intros a Ha. unfold is_numchar. now rewrite D. Qed.
Lemma word_fmt_abs d x : word (fmt_abs d x). Proof. apply word_numchars, fmt_abs_chars. Qed.
Lemma word_fmt d x : word (fmt d x).
Proof. unfold fmt. apply word_app; [destruct (Rltb x 0); reflexivity|apply word_fmt_abs]. Qed.
Lemma word_fmt_complex d z : word (fmt_complex d z).
Proof. unfold fmt_complex. apply word_app; [apply word_fmt|]. apply word_app; [destruct (Rltb (Im z) 0); reflexivity|]. apply word_app; [apply word_fmt_abs|reflexivity]. Qed.

Lemma word_no_nl w : word w -> no_nl w.
Proof.
  unfold word, no_nl. rewrite !forallb_forall. intros H a Ha. specialize (H a Ha). apply negb_true_iff in H.
  now rewrite not_space_not_nl.
Qed.
Lemma no_nl_app a b : no_nl a -> no_nl b -> no_nl (a ++ b).
Proof. unfold no_nl. intros. rewrite forallb_app. now rewrite H, H0. Qed.

Lemma fmt_nonempty d x : fmt d x <> [].
Proof. unfold fmt. destruct (fmt_abs_head d x) as [a [l [-> _]]]. destruct (Rltb x 0); discriminate. Qed.
Lemma fmt_complex_nonempty d z : fmt_complex d z <> [].
Proof. unfold fmt_complex. intros E. apply app_eq_nil in E as [E _]. now apply fmt_nonempty in E. Qed.

Lemma word_fmt_cell v : word (fmt_cell 4 v).
Proof. destruct v; [apply word_fmt_complex|reflexivity]. Qed.
Lemma fmt_cell_nonempty v : fmt_cell 4 v <> [].
Proof. destruct v; [apply fmt_complex_nonempty|discriminate]. Qed.

(** *** The lines of a saved circuit *)
Opaque digits fmt fmt_abs fmt_complex fmt_cell.
Lemma split_line1 f p freq : split (line1 f p freq) =
  [L "f=" ++ digits (Z.of_nat f) ++ L ","; L "p=" ++ digits (Z.of_nat p); L "freq"; L "="; fmt 4 freq; L "x"; digits (Z.of_nat p)].
Proof.
  unfold split, line1.
  change (L "   f=") with (L "   " ++ L "f="). rewrite <- app_assoc. rewrite split_acc_blank by reflexivity.
  replace (L "f=" ++ digits (Z.of_nat f) ++ L ", p=" ++ digits (Z.of_nat p) ++ [tab_char; tab_char; tab_char] ++ L "freq = " ++ fmt 4 freq ++ L " x " ++ digits (Z.of_nat p) ++ [nl])
    with ((L "f=" ++ digits (Z.of_nat f) ++ L ",") ++ L " " ++ (L "p=" ++ digits (Z.of_nat p)) ++ [tab_char; tab_char; tab_char]
      ++ L "freq" ++ L " " ++ L "=" ++ L " " ++ fmt 4 freq ++ L " " ++ L "x" ++ L " " ++ digits (Z.of_nat p) ++ [nl] ++ [])
    by (change (L ", p=") with (L "," ++ L " " ++ L "p="); change (L "freq = ") with (L "freq" ++ L " " ++ L "=" ++ L " ");
        change (L " x ") with (L " " ++ L "x" ++ L " "); rewrite !app_nil_r; repeat rewrite <- app_assoc; reflexivity).
  assert (W : forall n : nat, word (digits (Z.of_nat n))) by (intros; apply word_digits; lia).
  assert (NE : forall n : nat, digits (Z.of_nat n) <> []) by (intros; apply digits_nonempty; lia).
  rewrite split_word_blank; [|repeat apply word_app; try apply W; reflexivity|discriminate|split; [discriminate|reflexivity]].
  rewrite split_word_blank; [|repeat apply word_app; try apply W; reflexivity|discriminate|split; [discriminate|reflexivity]].
  rewrite split_word_blank; [|reflexivity|discriminate|split; [discriminate|reflexivity]].
  rewrite split_word_blank; [|reflexivity|discriminate|split; [discriminate|reflexivity]].
  rewrite split_word_blank; [|apply word_fmt|apply fmt_nonempty|split; [discriminate|reflexivity]].
  rewrite split_word_blank; [|reflexivity|discriminate|split; [discriminate|reflexivity]].
  rewrite split_word_blank; [|apply W|apply NE|split; [discriminate|reflexivity]]. reflexivity.
Qed.

Lemma split_line2 vt : exists r, split (line2 vt) = [L "Thev."; L "voltage:"; fmt_cell 4 vt] ++ r.
Proof.
  exists [L "V"; L "/"; L "V_gap"]. unfold split, line2. change (tab_char :: L "Thev. voltage:" ++ [tab_char; tab_char] ++ fmt_cell 4 vt ++ L " V / V_gap" ++ [nl])
   with ([tab_char] ++ L "Thev." ++ L " " ++ L "voltage:" ++ [tab_char; tab_char] ++ fmt_cell 4 vt ++ L " " ++ L "V" ++ L " " ++ L "/" ++ L " " ++ L "V_gap" ++ [nl] ++ []).
  rewrite split_acc_blank by reflexivity.
  rewrite split_word_blank; [|reflexivity|discriminate|split; [discriminate|reflexivity]].
  rewrite split_word_blank; [|reflexivity|discriminate|split; [discriminate|reflexivity]].
  rewrite split_word_blank; [|apply word_fmt_cell|apply fmt_cell_nonempty|split; [discriminate|reflexivity]].
  rewrite !split_word_blank; try reflexivity; try discriminate; split; try discriminate; reflexivity.
Qed.

Lemma split_line3 zt : exists r, split (line3 zt) = [L "Thev."; L "impedance:"; fmt_complex 2 zt] ++ r.
Proof.
  exists [L "ohms"; L "/"; L "R_N"]. unfold split, line3. change (tab_char :: L "Thev. impedance:" ++ [tab_char] ++ fmt_complex 2 zt ++ L " ohms / R_N" ++ [nl])
   with ([tab_char] ++ L "Thev." ++ L " " ++ L "impedance:" ++ [tab_char] ++ fmt_complex 2 zt ++ L " " ++ L "ohms" ++ L " " ++ L "/" ++ L " " ++ L "R_N" ++ [nl] ++ []).
  rewrite split_acc_blank by reflexivity.
  rewrite split_word_blank; [|reflexivity|discriminate|split; [discriminate|reflexivity]].
  rewrite split_word_blank; [|reflexivity|discriminate|split; [discriminate|reflexivity]].
  rewrite split_word_blank; [|apply word_fmt_complex|apply fmt_complex_nonempty|split; [discriminate|reflexivity]].
  rewrite !split_word_blank; try reflexivity; try discriminate; split; try discriminate; reflexivity.
Qed.

Lemma search_int_spec pre n post : 0 <= n -> forallb (fun a => negb (is_digit a)) pre = true ->
  match post with [] => True | a :: _ => is_digit a = false end -> search_int (pre ++ digits n ++ post) = Ok n.
Proof.
  intros Hn Hp Hq. unfold search_int. pose proof (digits_digit n Hn) as D. destruct (digits n) as [|a l] eqn:E; [now apply digits_nonempty in E|].
  rewrite span_all; [|assumption|simpl in *; apply andb_true_iff in D as [-> _]; reflexivity].
  rewrite span_all by assumption. rewrite <- E, digits_value by assumption. reflexivity.
Qed.

Lemma line_ok1 f p freq : exists l, line1 f p freq = l ++ [nl] /\ no_nl l.
Proof.
  unfold line1. eexists. split.
  - rewrite !app_assoc. reflexivity.
  - assert (W : forall n : nat, no_nl (digits (Z.of_nat n))) by (intros; apply word_no_nl, word_digits; lia).
    repeat apply no_nl_app; try apply W; try (apply word_no_nl, word_fmt); reflexivity.
Qed.
Lemma line_ok2 vt : exists l, line2 vt = l ++ [nl] /\ no_nl l.
Proof.
  unfold line2. eexists. split.
  - rewrite app_comm_cons, !app_assoc. reflexivity.
  - repeat apply no_nl_app; try (apply word_no_nl, word_fmt_cell); reflexivity.
Qed.
Lemma line_ok3 zt : exists l, line3 zt = l ++ [nl] /\ no_nl l.
Proof.
  unfold line3. eexists. split.
  - rewrite app_comm_cons, !app_assoc. reflexivity.
  - repeat apply no_nl_app; try (apply word_no_nl, word_fmt_complex); reflexivity.
Qed.

(** ** Writing *)
Lemma zrange_seq n : zrange 1 (Z.of_nat n + 1) = List.map Z.of_nat (seq 1 n).
Proof.
  unfold zrange. replace (Z.to_nat (Z.of_nat n + 1 - 1)) with n by lia. rewrite <- seq_shift, map_map. apply map_ext. intros. lia.
Qed.

Lemma foreach_append {A} (l : list A) (body : A -> text -> res text) g :
  (forall x out, In x l -> body x out = Ok (out ++ g x)) -> forall out, foreach l body out = Ok (out ++ List.concat (List.map g l)).
Proof.
  induction l as [|x l IH]; intros H out; simpl; [now rewrite app_nil_r|]. rewrite H by now left. cbn [bind].
  rewrite IH by (intros; apply H; now right). now rewrite <- app_assoc.
Qed.

Section File.
Variables (nf np : nat) (freq : nat -> R) (vt : nat -> nat -> option C) (zt : nat -> nat -> C).

Definition cell_lines (fp : nat * nat) : list text :=
  [line1 (fst fp) (snd fp) (freq (fst fp)); line2 (vt (fst fp) (snd fp)); line3 (zt (fst fp) (snd fp))].
Definition all_cells : list (nat * nat) := list_prod (seq 1 nf) (seq 1 np).

(** The circuit holds these values. *)
Definition holds (c : circ) : Prop :=
  well_shaped c /\ c_num_f c = nf /\ c_num_p c = np /\
  forall f p, (1 <= f <= nf)%nat -> (1 <= p <= np)%nat ->
    nth_error (c_freq c) f = Some (freq f) /\ cell (c_vt c) f p = Some (vt f p) /\ cell (c_zt c) f p = Some (zt f p).

Lemma get2_nat {A} (m : list (list A)) f p x : cell m f p = Some x -> get2 m (Z.of_nat f) (Z.of_nat p) = Ok x.
Proof.
  unfold cell. destruct (nth_error m f) as [row|] eqn:E; [|discriminate]. intros H.
  apply (get2_cell m _ _ f p row x); auto; split; try (now left).
  - apply nth_error_Some. congruence.
  - apply nth_error_Some. congruence.
Qed.
Lemma pyget_nat {A} (m : list A) f x : nth_error m f = Some x -> pyget m (Z.of_nat f) = Ok x.
Proof. intros H. apply (pyget_names m _ f x); auto. split; [apply nth_error_Some; congruence|now left]. Qed.

Lemma all_cells_flat : forall g : nat * nat -> list text,
  List.concat (List.map (fun f => List.concat (List.map (fun p => List.concat (g (f, p))) (seq 1 np))) (seq 1 nf)) = List.concat (flat_map g all_cells).
Proof.
  intros g. unfold all_cells. generalize (seq 1 nf). intros l. induction l as [|f l IH]; [reflexivity|]. cbn [List.map List.concat list_prod].
  rewrite flat_map_app, concat_app, IH. f_equal. generalize (seq 1 np). intros l'. induction l' as [|p l' IH']; [reflexivity|].
  cbn [List.map List.concat flat_map]. rewrite concat_app, IH'. reflexivity.
Qed.

Lemma save_info_text c : holds c -> save_info c = Ok (List.concat (header nf np ++ flat_map cell_lines all_cells)).
Proof.
  intros [W [E1 [E2 H]]]. unfold save_info. rewrite E1, E2, !zrange_seq.
  rewrite (foreach_append _ _ (fun f => List.concat (List.map (fun p => List.concat (cell_lines (Z.to_nat f, Z.to_nat p))) (List.map Z.of_nat (seq 1 np))))).
  - cbn [bind]. rewrite concat_app. f_equal. f_equal. cbn [app]. rewrite map_map. rewrite <- all_cells_flat. f_equal. apply map_ext. intros f.
    rewrite map_map. f_equal. apply map_ext. intros p. now rewrite !Nat2Z.id.
  - intros f out Hf. apply in_map_iff in Hf as [f' [<- Hf]]. apply in_seq in Hf.
    rewrite (foreach_append _ _ (fun p => List.concat (cell_lines (Z.to_nat (Z.of_nat f'), Z.to_nat p)))); [reflexivity|].
    intros p out' Hp. apply in_map_iff in Hp as [p' [<- Hp]]. apply in_seq in Hp.
    destruct (H f' p') as [H1 [H2 H3]]; try lia. rewrite (pyget_nat _ _ _ H1). cbn [bind].
    rewrite (get2_nat _ _ _ _ H2), (get2_nat _ _ _ _ H3). cbn [bind]. rewrite !Nat2Z.id. unfold cell_lines. cbn [fst snd List.concat].
    now rewrite app_nil_r.
Qed.

(** ** Reading *)
Definition store (fp : nat * nat) (c : circ) : res circ :=
  let* c := put_freq c (Z.of_nat (fst fp)) (round_dec 4 (freq (fst fp))) in
  let* c := put_vt c (Z.of_nat (fst fp)) (Z.of_nat (snd fp)) (round_o (vt (fst fp) (snd fp))) in
  put_zt c (Z.of_nat (fst fp)) (Z.of_nat (snd fp)) (round_c 2 (zt (fst fp) (snd fp))).

Lemma pyget_app_here {A} (pre : list A) k x r : nth_error r k = Some x -> pyget (pre ++ r) (Z.of_nat (List.length pre) + Z.of_nat k) = Ok x.
Proof.
  intros H. rewrite <- Nat2Z.inj_add. apply pyget_nat. rewrite nth_error_app2 by lia. replace (_ + k - _)%nat with k by lia. exact H.
Qed.

Lemma read_step_1 pre fp post c i : i = List.length pre ->
  read_step (pre ++ cell_lines fp ++ post) c i (line1 (fst fp) (snd fp) (freq (fst fp))) = store fp c.
Proof.
  intros ->. unfold read_step. rewrite split_line1. cbn [pyget]. destruct fp as [f p]. cbn [fst snd].
  unfold pyget at 1. cbn [List.length]. rewrite pyidx_nonneg by lia. change (Z.to_nat 0) with 0%nat. cbn [nth_error bind].
  unfold pyget at 1. cbn [L list_ascii_of_string app List.length]. rewrite pyidx_nonneg by lia. change (Z.to_nat 0) with 0%nat. cbn [nth_error bind].
  change (Ascii.eqb "f" "f") with true. cbv iota.
  change ("f"%char :: "="%char :: digits (Z.of_nat f) ++ [","%char]) with (L "f=" ++ digits (Z.of_nat f) ++ L ",").
  rewrite search_int_spec; [|lia|reflexivity|reflexivity]. cbn [bind].
  unfold pyget at 1. cbn [List.length]. rewrite pyidx_nonneg by lia. change (Z.to_nat 1) with 1%nat. cbn [nth_error bind].
  change ("p"%char :: "="%char :: digits (Z.of_nat p)) with (L "p=" ++ digits (Z.of_nat p)). rewrite <- (app_nil_r (digits (Z.of_nat p))).
  rewrite search_int_spec; [|lia|reflexivity|exact I]. cbn [bind]. rewrite app_nil_r.
  unfold pyget at 1. cbn [List.length]. rewrite pyidx_nonneg by lia. change (Z.to_nat 4) with 4%nat. cbn [nth_error bind].
  rewrite parse_float_fmt by lia. cbn [bind].
  change 1 with (Z.of_nat 1). rewrite (pyget_app_here pre 1 (line2 (vt f p))) by reflexivity. cbn [bind].
  destruct (split_line2 (vt f p)) as [r2 ->]. unfold pyget at 1. cbn [List.length app]. rewrite pyidx_nonneg by lia. change (Z.to_nat 2) with 2%nat. cbn [nth_error bind].
  rewrite parse_cell_fmt. cbn [bind].
  change 2 with (Z.of_nat 2). rewrite (pyget_app_here pre 2 (line3 (zt f p))) by reflexivity. cbn [bind].
  destruct (split_line3 (zt f p)) as [r3 ->]. unfold pyget at 1. cbn [List.length app]. rewrite pyidx_nonneg by lia. change (Z.to_nat (Z.of_nat 2)) with 2%nat. cbn [nth_error bind].
  rewrite parse_complex_fmt by lia. cbn [bind]. reflexivity.
Qed.

Lemma read_step_2 data v c i : read_step data c i (line2 v) = Ok c.
Proof.
  unfold read_step. destruct (split_line2 v) as [r ->]. unfold pyget at 1. cbn [List.length app]. rewrite pyidx_nonneg by lia. change (Z.to_nat 0) with 0%nat. cbn [nth_error bind].
  reflexivity.
Qed.
Lemma read_step_3 data z c i : read_step data c i (line3 z) = Ok c.
Proof.
  unfold read_step. destruct (split_line3 z) as [r ->]. unfold pyget at 1. cbn [List.length app]. rewrite pyidx_nonneg by lia. change (Z.to_nat 0) with 0%nat. cbn [nth_error bind].
  reflexivity.
Qed.

Lemma read_loop cs : forall pre c,
  foreach (List.combine (seq (List.length pre) (List.length (flat_map cell_lines cs))) (flat_map cell_lines cs))
    (fun il c => read_step (pre ++ flat_map cell_lines cs) c (fst il) (snd il)) c = foreach cs store c.
Proof.
  induction cs as [|fp cs IH]; intros pre c; [reflexivity|]. cbn [flat_map]. 
  change (cell_lines fp ++ flat_map cell_lines cs) with
    (line1 (fst fp) (snd fp) (freq (fst fp)) :: line2 (vt (fst fp) (snd fp)) :: line3 (zt (fst fp) (snd fp)) :: flat_map cell_lines cs) at 1 2.
  cbn [List.length seq List.combine foreach fst snd]. rewrite read_step_1 by reflexivity.
  destruct (store fp c) as [c'|]; cbn [bind]; [|reflexivity]. rewrite read_step_2. cbn [bind]. rewrite read_step_3. cbn [bind].
  rewrite <- (IH (pre ++ cell_lines fp) c'). rewrite app_length. cbn [cell_lines List.length]. rewrite <- app_assoc.
  replace (List.length pre + 3)%nat with (S (S (S (List.length pre)))) by lia. reflexivity.
Qed.

(** *** What the stores do *)
Lemma put_zt_ok c c' f p v : put_zt c f p v = Ok c' ->
  w_zt c = true /\ same_but false false true false false false c c' /\
  exists j k row, names (List.length (c_zt c)) f j /\ nth_error (c_zt c) j = Some row /\ names (List.length row) p k /\
    replaced2 (c_zt c) (c_zt c') j k v.
Proof.
  unfold put_zt. destruct (w_zt c) eqn:W; [|discriminate]. cbn [guard bind]. intros H. apply bind_ok in H as [l [H1 H2]].
  injection H2 as <-. split; [reflexivity|]. apply set2_ok in H1 as [j [k [row [N1 [N2 [N3 R]]]]]]. split.
  - unfold same_but. repeat split; auto.
  - exists j, k, row. auto.
Qed.

Lemma rect_row {A} (m : list (list A)) a b f : rectangular m a b -> (f < a)%nat -> exists row, nth_error m f = Some row /\ List.length row = b.
Proof.
  intros [H1 H2] H. destruct (nth_error m f) as [row|] eqn:E; [|apply nth_error_None in E; lia]. exists row. split; [reflexivity|].
  apply H2. eapply nth_error_In; eauto.
Qed.

Lemma set2_nat {A} (m : list (list A)) a b f p x : rectangular m a b -> (f < a)%nat -> (p < b)%nat ->
  exists m', set2 m (Z.of_nat f) (Z.of_nat p) x = Ok m' /\ rectangular m' a b /\ replaced2 m m' f p x.
Proof.
  intros R Hf Hp. destruct (rect_row m a b f R Hf) as [row [E Lr]]. assert (Lm := proj1 R).
  destruct (set2 m (Z.of_nat f) (Z.of_nat p) x) as [m'|er] eqn:S.
  - exists m'. split; [reflexivity|]. apply set2_ok in S as [j [k [row' [N1 [N2 [N3 Q]]]]]].
    assert (j = f) by (apply (names_fun _ _ _ _ N1); split; [lia|now left]). subst j.
    assert (row' = row) by congruence. subst row'. assert (k = p) by (apply (names_fun _ _ _ _ N3); split; [lia|now left]). subst k.
    split; [|exact Q]. exact (same_lengths m m' a b (proj1 Q) R).
  - exfalso. unfold set2 in S. rewrite (pyget_nat m f row E) in S. cbn [bind] in S. unfold pyset in S. rewrite (pyidx_nonneg _ (Z.of_nat p)) in S by lia. cbn [bind] in S.
    rewrite pyidx_nonneg in S by lia. discriminate.
Qed.

Definition dflt (c0 c : circ) : Prop := same_but true true true false false false c0 c.

Definition stored (c0 : circ) (ds : list (nat * nat)) (c : circ) : Prop :=
  same_but true true true false false false c0 c /\ writeable c /\
  List.length (c_freq c) = S nf /\ rectangular (c_vt c) (S nf) (S np) /\ rectangular (c_zt c) (S nf) (S np) /\
  (forall f p, In (f, p) ds -> nth_error (c_freq c) f = Some (round_dec 4 (freq f)) /\
     cell (c_vt c) f p = Some (round_o (vt f p)) /\ cell (c_zt c) f p = Some (round_c 2 (zt f p))) /\
  (forall f, (f <= nf)%nat -> (forall p, ~ In (f, p) ds) -> nth_error (c_freq c) f = Some 0%R) /\
  (forall f p, (f <= nf)%nat -> (p <= np)%nat -> ~ In (f, p) ds -> cell (c_vt c) f p = Some (Some (RtoC 0)) /\ cell (c_zt c) f p = Some (RtoC 0)).

Lemma store_step c0 ds fp c : stored c0 ds c -> (fst fp <= nf)%nat -> (snd fp <= np)%nat ->
  exists c', store fp c = Ok c' /\ stored c0 (ds ++ [fp]) c'.
Proof.
  destruct fp as [f p]. cbn [fst snd]. intros (S0&(W1&W2&W3&W4)&Lf&Rv&Rz&D&F0&C0) Hf Hp.
  unfold store. cbn [fst snd]. unfold put_freq. rewrite W1. cbn [guard bind]. unfold pyset. rewrite pyidx_nonneg by lia. rewrite Nat2Z.id. cbn [bind].
  unfold put_vt. cbn [with_freq c_vt w_vt]. rewrite W2. cbn [guard bind].
  destruct (set2_nat (c_vt c) (S nf) (S np) f p (round_o (vt f p)) Rv) as [v' [E1 [Rv' [_ [Qv Qv']]]]]; try lia. rewrite E1. cbn [bind].
  unfold put_zt. cbn [with_vt with_freq c_zt w_zt]. rewrite W3. cbn [guard bind].
  destruct (set2_nat (c_zt c) (S nf) (S np) f p (round_c 2 (zt f p)) Rz) as [z' [E2 [Rz' [_ [Qz Qz']]]]]; try lia. rewrite E2. cbn [bind].
  eexists. split; [reflexivity|]. unfold stored. cbn [with_zt with_vt with_freq c_freq c_vt c_zt].
  split; [|split; [|split; [|split; [|split; [|split; [|split]]]]]]; try assumption.
  - unfold same_but in *. cbn. tauto.
  - repeat split; assumption.
  - now rewrite list_set_length.
  - intros g q Hin. split; [|split].
    + rewrite nth_error_list_set. destruct (Nat.eqb_spec g f) as [->|N].
      * destruct (Nat.ltb_spec f (List.length (c_freq c))); [reflexivity|lia].
      * apply in_app_or in Hin as [Hin|[[= <- <-]|[]]]; [|congruence]. now apply (D g q).
    + destruct (Nat.eq_dec g f) as [->|N]; [destruct (Nat.eq_dec q p) as [->|M]|].
      * exact Qv.
      * rewrite Qv' by congruence. apply in_app_or in Hin as [Hin|[[= <-]|[]]]; [|congruence]. now apply D.
      * rewrite Qv' by congruence. apply in_app_or in Hin as [Hin|[[= <- <-]|[]]]; [|congruence]. now apply D.
    + destruct (Nat.eq_dec g f) as [->|N]; [destruct (Nat.eq_dec q p) as [->|M]|].
      * exact Qz.
      * rewrite Qz' by congruence. apply in_app_or in Hin as [Hin|[[= <-]|[]]]; [|congruence]. now apply D.
      * rewrite Qz' by congruence. apply in_app_or in Hin as [Hin|[[= <- <-]|[]]]; [|congruence]. now apply D.
  - intros g Hg N. rewrite nth_error_list_set. destruct (Nat.eqb_spec g f) as [->|M].
    + exfalso. apply (N p). apply in_or_app. right. now left.
    + apply F0; [assumption|]. intros q Hq. apply (N q). apply in_or_app. now left.
  - intros g q Hg Hq N. rewrite Qv', Qz'; [|intros [= -> ->]; apply N; apply in_or_app; right; now left|intros [= -> ->]; apply N; apply in_or_app; right; now left].
    apply C0; auto. intros Hin. apply N. apply in_or_app. now left.
Qed.

Lemma store_all c0 : stored c0 [] c0 -> exists c', foreach all_cells store c0 = Ok c' /\ stored c0 all_cells c'.
Proof.
  intros H. apply (foreach_inv (stored c0) store all_cells [] c0 H).
  intros pre fp acc Hin Hs. apply store_step; [assumption| |]; unfold all_cells in Hin; destruct fp as [f p]; apply in_prod_iff in Hin as [H1 H2];
  apply in_seq in H1, H2; cbn [fst snd]; lia.
Qed.
End File.

Section Top.
Variables h e : R.

Lemma split_tones n : exists ws, split (tab_char :: L "Number of tones:     " ++ digits (Z.of_nat n) ++ [nl]) = ws ++ [digits (Z.of_nat n)].
Proof.
  exists [L "Number"; L "of"; L "tones:"]. unfold split.
  change (tab_char :: L "Number of tones:     " ++ digits (Z.of_nat n) ++ [nl]) with
    ([tab_char] ++ L "Number" ++ L " " ++ L "of" ++ L " " ++ L "tones:" ++ L "     " ++ digits (Z.of_nat n) ++ [nl] ++ []).
  rewrite split_acc_blank by reflexivity. 
  do 3 (rewrite split_word_blank; [|reflexivity|discriminate|split; [discriminate|reflexivity]]).
  rewrite split_word_blank; [|apply word_digits; lia|apply digits_nonempty; lia|split; [discriminate|reflexivity]]. reflexivity.
Qed.
Lemma split_harm n : exists ws, split (tab_char :: L "Number of harmonics: " ++ digits (Z.of_nat n) ++ [nl]) = ws ++ [digits (Z.of_nat n)].
Proof.
  exists [L "Number"; L "of"; L "harmonics:"]. unfold split.
  change (tab_char :: L "Number of harmonics: " ++ digits (Z.of_nat n) ++ [nl]) with
    ([tab_char] ++ L "Number" ++ L " " ++ L "of" ++ L " " ++ L "harmonics:" ++ L " " ++ digits (Z.of_nat n) ++ [nl] ++ []).
  rewrite split_acc_blank by reflexivity. 
  do 3 (rewrite split_word_blank; [|reflexivity|discriminate|split; [discriminate|reflexivity]]).
  rewrite split_word_blank; [|apply word_digits; lia|apply digits_nonempty; lia|split; [discriminate|reflexivity]]. reflexivity.
Qed.

Lemma pyget_last {A} (l : list A) x : pyget (l ++ [x]) (-1) = Ok x.
Proof.
  unfold pyget. rewrite app_length. cbn [List.length]. rewrite pyidx_neg by lia. replace (Z.to_nat _) with (List.length l) by lia.
  rewrite nth_error_app2 by lia. now rewrite Nat.sub_diag.
Qed.

Definition getd {A} (d : A) (o : option A) : A := match o with Some x => x | None => d end.

Lemma well_shaped_in c f p : well_shaped c -> (f <= c_num_f c)%nat -> (p <= c_num_p c)%nat ->
  (exists x, nth_error (c_freq c) f = Some x) /\ (exists v, cell (c_vt c) f p = Some v) /\ (exists z, cell (c_zt c) f p = Some z).
Proof.
  intros (_&Lf&Rv&Rz&_) Hf Hp. split; [|split].
  - destruct (nth_error (c_freq c) f) eqn:E; [eauto|apply nth_error_None in E; lia].
  - destruct (rect_row _ _ _ f Rv) as [row [E Lr]]; [lia|]. unfold cell. rewrite E. destruct (nth_error row p) eqn:E'; [eauto|apply nth_error_None in E'; lia].
  - destruct (rect_row _ _ _ f Rz) as [row [E Lr]]; [lia|]. unfold cell. rewrite E. destruct (nth_error row p) eqn:E'; [eauto|apply nth_error_None in E'; lia].
Qed.

Lemma holds_any c : well_shaped c ->
  holds (c_num_f c) (c_num_p c) (fun f => getd 0%R (nth_error (c_freq c) f)) (fun f p => getd None (cell (c_vt c) f p)) (fun f p => getd (RtoC 0) (cell (c_zt c) f p)) c.
Proof.
  intros W. repeat split; try assumption; try apply W.
  - destruct (well_shaped_in c f p W) as [[x ->] _]; [lia|lia|]. reflexivity.
  - destruct (well_shaped_in c f p W) as [_ [[v ->] _]]; [lia|lia|]. reflexivity.
  - destruct (well_shaped_in c f p W) as [_ [_ [z ->]]]; [lia|lia|]. reflexivity.
Qed.

Lemma cell_repeat {A} (x : A) a b f p : (f < a)%nat -> (p < b)%nat -> cell (repeat (repeat x b) a) f p = Some x.
Proof. intros Hf Hp. unfold cell. rewrite nth_error_repeat by assumption. now apply nth_error_repeat. Qed.

Lemma init_default nf np : (1 <= nf <= 4)%nat -> (1 <= np)%nat ->
  exists c0, init h e (PInt (Z.of_nat nf)) (PInt (Z.of_nat np)) 0 2 (PInt 201) None None None "" = Ok c0 /\
    c_num_f c0 = nf /\ c_num_p c0 = np /\ well_shaped c0 /\ writeable c0 /\
    (forall f, (f <= nf)%nat -> nth_error (c_freq c0) f = Some 0%R) /\
    (forall f p, (f <= nf)%nat -> (p <= np)%nat -> cell (c_vt c0) f p = Some (Some (RtoC 0)) /\ cell (c_zt c0) f p = Some (RtoC 0)).
Proof.
  intros H1 H2. destruct (proj2 (init_ok_iff h e (PInt (Z.of_nat nf)) (PInt (Z.of_nat np)) 0 2 (PInt 201) None None None "")) as [c0 E].
  { repeat split; try (eexists; split; [reflexivity|lia]); try lra. intros [K _]. congruence. }
  exists c0. split; [exact E|]. apply init_fields in E as (E1&E2&_&_&W&Wr&F0&C0&_). rewrite Nat2Z.id in E1, E2. rewrite E1, E2 in *.
  repeat split; try assumption; try apply W; try apply Wr; apply C0; assumption.
Qed.

Lemma read_saved c : well_shaped c -> (1 <= c_num_f c <= 4)%nat -> (1 <= c_num_p c)%nat ->
  exists t c0 c', save_info c = Ok t /\ read_circuit h e t = Ok c' /\
    init h e (PInt (Z.of_nat (c_num_f c))) (PInt (Z.of_nat (c_num_p c))) 0 2 (PInt 201) None None None "" = Ok c0 /\
    same_but true true true false false false c0 c' /\ rounded_copy c c'.
Proof.
  intros W Hnf Hnp. pose proof (holds_any c W) as H. set (fr := fun f => _) in H. set (v := fun f p => _) in H at 1. set (z := fun f p => _) in H.
  set (nf := c_num_f c) in *. set (np := c_num_p c) in *.
  destruct (init_default nf np Hnf Hnp) as [c0 (E0&N1&N2&W0&Wr0&F0&C0)].
  destruct (store_all nf np fr v z c0) as [c' [Es (S&Wr&Lf&Rv&Rz&D&Z1&Z2)]].
  { destruct W0 as (_&A1&A2&A3&_). rewrite N1, N2 in *. unfold stored. rewrite !Nat.add_1_r in *. repeat split; try assumption; try apply A2; try apply A3; try apply Wr0; auto.
    - contradiction. - contradiction. - contradiction. - intros; apply C0; assumption. - intros; apply C0; assumption. }
  exists (List.concat (header nf np ++ flat_map (cell_lines fr v z) (all_cells nf np))), c0, c'.
  split; [now apply save_info_text|]. split; [|split; [exact E0|split; [exact S|]]].
  - unfold read_circuit. rewrite readlines_concat.
    + cbn [header app]. 
      unfold pyget at 1. cbn [List.length]. rewrite pyidx_nonneg by lia. change (Z.to_nat 1) with 1%nat. cbn [nth_error bind].
      destruct (split_tones nf) as [ws ->]. rewrite pyget_last. cbn [bind]. rewrite parse_int_digits by lia. cbn [bind].
      unfold pyget at 1. cbn [List.length]. rewrite pyidx_nonneg by lia. change (Z.to_nat 2) with 2%nat. cbn [nth_error bind].
      destruct (split_harm np) as [ws' ->]. rewrite pyget_last. cbn [bind]. rewrite parse_int_digits by lia. cbn [bind].
      rewrite E0. cbn [bind].
      match goal with |- context [@pyslice ?T ?l ?a ?b] => assert (Sl : @pyslice T l a b = flat_map (cell_lines fr v z) (all_cells nf np)) end.
      { unfold pyslice, slice_bound. cbn [List.length]. change (3 <? 0) with false. cbv iota.
        match goal with |- context [Z.to_nat (Z.min ?a ?b)] => replace (Z.to_nat (Z.min a b)) with 3%nat by lia end.
        cbn [skipn]. cbn [Nat.sub]. rewrite ?Nat.sub_0_r. apply firstn_all. }
      rewrite Sl. exact (eq_trans (read_loop fr v z (all_cells nf np) [] c0) Es).
    + apply Forall_app. split.
      * assert (Dn : forall n : nat, no_nl (digits (Z.of_nat n))) by (intros; apply word_no_nl, word_digits; lia).
        unfold header. repeat constructor.
        -- eexists. split; [reflexivity|reflexivity].
        -- eexists. split; [rewrite app_comm_cons, app_assoc; reflexivity|]. apply no_nl_app; [reflexivity|apply Dn].
        -- eexists. split; [rewrite app_comm_cons, app_assoc; reflexivity|]. apply no_nl_app; [reflexivity|apply Dn].
      * apply Forall_flat_map. apply Forall_forall. intros fp _. unfold cell_lines. repeat constructor; [apply line_ok1|apply line_ok2|apply line_ok3].
  - assert (In_cells : forall f p, In (f, p) (all_cells nf np) <-> (1 <= f <= nf)%nat /\ (1 <= p <= np)%nat).
    { intros f p. unfold all_cells. rewrite in_prod_iff, !in_seq. lia. }
    unfold rounded_copy. fold nf np. assert (S' := S). unfold same_but in S'. destruct S' as (_&S1&S2&S3&_&_&_&_&S4&_&_&_&S5&S6&_).
    split; [congruence|]. split; [congruence|]. split; [|split; [exact Wr|split; [|split; [|split; [|split; [|split]]]]]].
    + destruct W0 as (Q1&_&_&_&Q2&Q3). unfold well_shaped. rewrite S1, S2, S3, S4. destruct S5 as [|S5]; [discriminate|]. destruct S6 as [|S6]; [discriminate|].
      rewrite S5, S6. rewrite N1, N2 in *. rewrite !Nat.add_1_r in *. (repeat split); (assumption || apply Rv || apply Rz || apply Q2).
    + intros f x Hf Hx. destruct (D f 1%nat) as [D1 _]; [apply In_cells; lia|]. rewrite D1. unfold fr. now rewrite Hx.
    + intros f p w Hf Hp Hw. destruct (D f p) as [_ [D1 _]]; [apply In_cells; lia|]. rewrite D1. unfold v. now rewrite Hw.
    + intros f p Hf Hp Hw. destruct (D f p) as [_ [D1 _]]; [apply In_cells; lia|]. rewrite D1. unfold v. now rewrite Hw.
    + intros f p w Hf Hp Hw. destruct (D f p) as [_ [_ D1]]; [apply In_cells; lia|]. rewrite D1. unfold z. now rewrite Hw.
    + apply Z1; [lia|]. intros p K. apply In_cells in K. lia.
    + intros f p Hf Hp O. apply Z2; auto. intros K. apply In_cells in K. lia.
Qed.

Lemma nth_error_ext {A} (l l' : list A) : (forall k, nth_error l k = nth_error l' k) -> l = l'.
Proof.
  revert l'; induction l as [|x l IH]; intros [|x' l'] H; try (specialize (H O); discriminate); [reflexivity|].
  pose proof (H O) as H0. simpl in H0. injection H0 as ->. f_equal. apply IH. intros k. exact (H (S k)).
Qed.

Lemma cells_ext {A} (m m' : list (list A)) a b : rectangular m a b -> rectangular m' a b ->
  (forall f p, (f < a)%nat -> (p < b)%nat -> cell m f p = cell m' f p) -> m = m'.
Proof.
  intros R R' H. apply nth_error_ext. intros f. destruct (Nat.lt_ge_cases f a) as [Hf|Hf].
  - destruct (rect_row m a b f R Hf) as [r [E L1]], (rect_row m' a b f R' Hf) as [r' [E' L2]]. rewrite E, E'. f_equal.
    apply nth_error_ext. intros p. destruct (Nat.lt_ge_cases p b) as [Hp|Hp].
    + specialize (H f p Hf Hp). unfold cell in H. now rewrite E, E' in H.
    + rewrite (proj2 (nth_error_None r p)), (proj2 (nth_error_None r' p)); [reflexivity|lia|lia].
  - destruct R as [R _], R' as [R' _]. rewrite (proj2 (nth_error_None m f)), (proj2 (nth_error_None m' f)); [reflexivity|lia|lia].
Qed.

Lemma circ_ext c c' : c_name c' = c_name c -> c_num_f c' = c_num_f c -> c_num_p c' = c_num_p c -> c_num_n c' = c_num_n c ->
  c_fgap c' = c_fgap c -> c_vgap c' = c_vgap c -> c_igap c' = c_igap c -> c_rn c' = c_rn c -> c_freq c' = c_freq c -> c_vt c' = c_vt c -> c_zt c' = c_zt c ->
  c_npts c' = c_npts c -> c_vb c' = c_vb c -> c_comment c' = c_comment c ->
  w_freq c' = w_freq c -> w_vt c' = w_vt c -> w_zt c' = w_zt c -> w_vb c' = w_vb c -> c' = c.
Proof. destruct c, c'; simpl; intros; subst; reflexivity. Qed.

(** Saving and reading a second time gives the same circuit. *)
Lemma read_saved_twice c t c' : well_shaped c -> (1 <= c_num_f c <= 4)%nat -> (1 <= c_num_p c)%nat ->
  save_info c = Ok t -> read_circuit h e t = Ok c' ->
  exists t', save_info c' = Ok t' /\ read_circuit h e t' = Ok c'.
Proof.
  intros W Hf Hp St Rt. destruct (read_saved c W Hf Hp) as [t1 [c0 [c1 (A1&A2&A3&A4&A5)]]].
  rewrite St in A1. injection A1 as <-. rewrite Rt in A2. injection A2 as <-.
  destruct A5 as (N1&N2&W1&Wr1&B1&B2&B2'&B3&B4&B5).
  destruct (read_saved c' W1) as [t2 [c02 [c2 (D1&D2&D3&D4&D5)]]]; [lia|lia|].
  exists t2. split; [exact D1|]. rewrite D2. f_equal. rewrite N1, N2, A3 in D3. injection D3 as <-.
  destruct D5 as (M1&M2&W2&_&G1&G2&G2'&G3&G4&G5). rewrite N1, N2 in *.
  unfold same_but in A4, D4. destruct A4 as (x1&x2&x3&x4&x5&x6&x7&x8&x9&_&_&_&[?|x10]&[?|x11]&[?|(x12&x13&x14&x15)]); try discriminate.
  destruct D4 as (y1&y2&y3&y4&y5&y6&y7&y8&y9&_&_&_&[?|y10]&[?|y11]&[?|(y12&y13&y14&y15)]); try discriminate.
  apply circ_ext; try congruence.
  - apply nth_error_ext. intros f. destruct (Nat.lt_ge_cases f (S (c_num_f c))) as [Q|Q].
    + destruct (Nat.eq_dec f 0) as [->|Z]; [congruence|]. destruct (well_shaped_in c f 0 W) as [[x Hx] _]; [lia|lia|].
      rewrite (B1 f x) by (assumption || lia). rewrite (G1 f (round_dec 4 x)); [|lia|apply B1; [lia|assumption]]. now rewrite round_dec_idem.
    + destruct W1 as (_&L1&_), W2 as (_&L2&_). rewrite (proj2 (nth_error_None _ f)), (proj2 (nth_error_None (c_freq c') f)); [reflexivity|lia|lia].
  - apply (cells_ext _ _ (S (c_num_f c)) (S (c_num_p c))).
    + destruct W2 as (_&_&R&_). rewrite M1, M2, !Nat.add_1_r in R. exact R.
    + destruct W1 as (_&_&R&_). rewrite N1, N2, !Nat.add_1_r in R. exact R.
    + intros f p Q1 Q2. destruct (Nat.eq_dec f 0) as [Z|Z]; [|destruct (Nat.eq_dec p 0) as [Z'|Z']].
      * rewrite (proj1 (G5 f p ltac:(lia) ltac:(lia) (or_introl Z))), (proj1 (B5 f p ltac:(lia) ltac:(lia) (or_introl Z))). reflexivity.
      * rewrite (proj1 (G5 f p ltac:(lia) ltac:(lia) (or_intror Z'))), (proj1 (B5 f p ltac:(lia) ltac:(lia) (or_intror Z'))). reflexivity.
      * destruct (well_shaped_in c f p W) as [_ [[[w|] Hw] _]]; [lia|lia| |rewrite (B2' f p ltac:(lia) ltac:(lia) Hw); apply G2'; [lia|lia|apply B2'; [lia|lia|exact Hw]]].
        pose proof (B2 f p w ltac:(lia) ltac:(lia) Hw) as K. rewrite K. rewrite (G2 f p _ ltac:(lia) ltac:(lia) K). simpl. now rewrite !round_dec_idem.
  - apply (cells_ext _ _ (S (c_num_f c)) (S (c_num_p c))).
    + destruct W2 as (_&_&_&R&_). rewrite M1, M2, !Nat.add_1_r in R. exact R.
    + destruct W1 as (_&_&_&R&_). rewrite N1, N2, !Nat.add_1_r in R. exact R.
    + intros f p Q1 Q2. destruct (Nat.eq_dec f 0) as [Z|Z]; [|destruct (Nat.eq_dec p 0) as [Z'|Z']].
      * rewrite (proj2 (G5 f p ltac:(lia) ltac:(lia) (or_introl Z))), (proj2 (B5 f p ltac:(lia) ltac:(lia) (or_introl Z))). reflexivity.
      * rewrite (proj2 (G5 f p ltac:(lia) ltac:(lia) (or_intror Z'))), (proj2 (B5 f p ltac:(lia) ltac:(lia) (or_intror Z'))). reflexivity.
      * destruct (well_shaped_in c f p W) as [_ [_ [w Hw]]]; [lia|lia|]. pose proof (B3 f p w ltac:(lia) ltac:(lia) Hw) as K. rewrite K. rewrite (G3 f p _ ltac:(lia) ltac:(lia) K). simpl. now rewrite !round_dec_idem.
Qed.
End Top.
