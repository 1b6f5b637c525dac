(** Properties C86, C100 and C102: terminal output (vocabulary in Spec_Misc.v). *)
From Coq Require Import List ZArith Reals String Ascii.
From Coquelicot Require Import Complex.
From Verif Require Import Base Round Model_Misc Spec_Misc Proof_Misc.
Import ListNotations.
Open Scope R_scope.

(** ** C86 *)
(** The title line: stars, the text between two blanks, stars. *)
Theorem C86_title : forall text total, exists l r, title_text text total = (many "*" l ++ " " ++ text ++ " " ++ many "*" r ++ newline)%string /\
  (l <= r <= S l)%nat /\ Z.of_nat (l + 1 + String.length text + 1 + r) = Z.max total (Z.of_nat (String.length text) + 2).
Proof. exact title_width. Qed.
Print Assumptions C86_title.
(** The bar between the vertical lines has length len; the number of dashes is in proportion
    to the progress; the line ends exactly at completion. *)
Theorem C86_bar : forall show it total pre suf d len, (0 < total)%Z -> (0 <= it <= total)%Z -> (0 <= len)%Z -> exists n text,
  progress_bar show it total pre suf d len = Ok (carriage_return ++ pre ++ " |" ++ (many "-" n ++ many " " (Z.to_nat len - n)) ++ "| " ++ text ++ "% " ++ suf ++ (if (it =? total)%Z then newline else ""))%string /\
  (n <= Z.to_nat len)%nat /\ Rabs (INR n - IZR len * (IZR it / IZR total)) <= 1 / 2 /\ (it = total -> n = Z.to_nat len) /\ (it = 0%Z -> n = 0%nat) /\
  exists p, text = show p /\ Rabs (p - 100 * IZR it / IZR total) <= / 2 / 10 ^ d.
Proof. exact bar_width. Qed.
Print Assumptions C86_bar.
(** No iterations at all, and more iterations than announced. *)
Theorem C86_nothing_to_do_refuted : forall show it pre suf d len, progress_bar show it 0 pre suf d len = Err ZeroDivisionError.
Proof. exact bar_zero. Qed.
Print Assumptions C86_nothing_to_do_refuted.
Theorem C86_beyond_total_refuted : forall show pre suf, exists text, progress_bar show 3 2 pre suf 2 20 = Ok (carriage_return ++ pre ++ " |" ++ many "-" 30 ++ "| " ++ text ++ "% " ++ suf)%string.
Proof. exact bar_overflow. Qed.
Print Assumptions C86_beyond_total_refuted.
Example C86_case : title_text "QMix" 13 = ("*** QMix ****" ++ newline)%string.
Proof. reflexivity. Qed.

(** ** C100 *)
Theorem C100_number : forall plus w d x, denotes (fixed plus w d x) (round_dec d x).
Proof. exact fixed_denotes. Qed.
Print Assumptions C100_number.
(** The line that pvalf prints: a tabulator, the name in a column of 15, the number to three
    decimals, the unit in a column of 15 and the comment. *)
Theorem C100_pvalf : forall name (z : C) units comment, exists num,
  pvalf_complex name z units comment = (tabulator ++ name ++ many " " (15 - String.length name) ++ " = " ++ num ++ unit_field units ++ many " " (15 - String.length (unit_field units)) ++ comment_field comment)%string /\
  complex_denotes num (round_dec 3 (fst z), round_dec 3 (snd z)).
Proof. exact pvalf_denotes. Qed.
Print Assumptions C100_pvalf.
Theorem C100_pvalf_real : forall name (x : R) units comment, exists num,
  pvalf_real name x units comment = (tabulator ++ name ++ many " " (15 - String.length name) ++ " = " ++ num ++ tabulator ++ unit_field units ++ many " " (15 - String.length (unit_field units)) ++ comment_field comment)%string /\
  denotes num (round_dec 3 x).
Proof. exact pvalf_real_denotes. Qed.
Print Assumptions C100_pvalf_real.
Theorem C100_printc_partial : forall z : C, 0 <= snd z -> complex_denotes (printc z) (round_dec 2 (fst z), round_dec 2 (snd z)).
Proof. exact printc_nonneg. Qed.
Print Assumptions C100_printc_partial.
(** A negative imaginary part: the text denotes the complex conjugate. *)
Theorem C100_printc_refuted : (forall z : C, snd z < 0 -> complex_denotes (printc z) (round_dec 2 (fst z), - round_dec 2 (snd z))) /\
  printc (1, -2) = " +1.00 - j-2.00"%string.
Proof. exact (conj printc_negative printc_case). Qed.
Print Assumptions C100_printc_refuted.

(** ** C102 *)
Theorem C102_cprint : forall colours text color, exists pre post, cprint colours text color = (pre ++ text ++ post)%string /\
  (match color with None => pre = ""%string /\ post = newline
   | Some c => (exists n, In (in_capitals c, n) styles /\ pre = escape_sequence n /\ post = (escape_sequence "0" ++ newline)%string) \/
               ((forall n, ~ In (in_capitals c, n) styles) /\ pre = ("'color' must be one of:" ++ newline ++ colours ++ newline)%string /\ post = (" " ++ c ++ newline)%string) end).
Proof. exact cprint_text. Qed.
Print Assumptions C102_cprint.
Example C102_case : upper "okGreen" = "OKGREEN"%string /\ cprint "" "done" (Some "green"%string) = (escape "92" ++ "done" ++ escape "0" ++ newline)%string.
Proof. split; reflexivity. Qed.
