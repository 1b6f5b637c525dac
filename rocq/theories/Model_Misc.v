(** Model of qmix/misc: what is written to the terminal, as strings.  Numbers are exact. *)
From Coq Require Import List ZArith Bool Arith Reals String Ascii.
From Coquelicot Require Import Complex.
From Verif Require Import Base Round Model_QtCurrent.
Import ListNotations.
Open Scope string_scope.

(** s * n *)
Fixpoint times_nat (s : string) (n : nat) : string := match n with O => "" | S n' => s ++ times_nat s n' end.
Definition times (s : string) (n : Z) : string := times_nat s (Z.to_nat n).
Definition newline : string := String (ascii_of_nat 10) "".
Definition carriage_return : string := String (ascii_of_nat 13) "".
Definition tab : string := String (ascii_of_nat 9) "".

(** qmix/misc/progbar.py:13-35 progress_bar.  [show] is the conversion of a float to a string
    with %s. *)
Definition progress_bar (show : R -> string) (iteration total : Z) (prefix suffix : string) (decimals : nat) (bar_length : Z) : res string :=
  if (total =? 0)%Z then Err ZeroDivisionError else
  let filled_length := rint (IZR (bar_length * iteration) / IZR total) in
  let pcent := round_dec decimals (100 * (IZR iteration / IZR total)) in
  let pbar := times "-" filled_length ++ times " " (bar_length - filled_length) in
  let out := carriage_return ++ prefix ++ " |" ++ pbar ++ "| " ++ show pcent ++ "%" ++ " " ++ suffix in
  Ok (if (iteration =? total)%Z then out ++ newline else out).

(** str.upper for ASCII letters. *)
Definition upper_char (c : ascii) : ascii :=
  let n := nat_of_ascii c in if ((97 <=? n) && (n <=? 122))%nat then ascii_of_nat (n - 32) else c.
Fixpoint upper (s : string) : string := match s with "" => "" | String c s' => String (upper_char c) (upper s') end.
Definition escape (s : string) : string := String (ascii_of_nat 27) ("[" ++ s ++ "m").
(** qmix/misc/terminal.py:154-179 *)
Definition terminal_colors : list (string * string) :=
  [("CYAN", escape "36"); ("MAGENTA", escape "35"); ("PINK", escape "95"); ("BLUE", escape "94"); ("GREEN", escape "92");
   ("YELLOW", escape "93"); ("RED", escape "91"); ("HEADER", escape "95"); ("HEADER1", escape "95"); ("HEADER2", escape "36");
   ("HEADER3", escape "92"); ("OKBLUE", escape "94"); ("OKGREEN", escape "92"); ("WARNING", escape "93"); ("FAIL", escape "91");
   ("BOLD", escape "1"); ("UNDERLINE", escape "4"); ("INVERSE", escape "7"); ("BLINK", escape "5"); ("ENDC", escape "0")].
Fixpoint lookup (d : list (string * string)) (k : string) : option string :=
  match d with [] => None | (k', v) :: d' => if String.eqb k k' then Some v else lookup d' k end.
(** qmix/misc/terminal.py:33-52 cprint: the lines that are printed, each followed by a
    newline.  The list of the colours, which is printed if the colour is unknown, is a
    parameter. *)
Definition cprint (colours : string) (text : string) (color : option string) : string :=
  match color with
  | None => text ++ newline
  | Some color =>
      match lookup terminal_colors (upper color) with
      | Some tcolour => tcolour ++ text ++ escape "0" ++ newline
      | None => "'color' must be one of:" ++ newline ++ colours ++ newline ++ text ++ " " ++ color ++ newline
      end
  end.
(** qmix/misc/terminal.py:57-79 title *)
Definition title_text (title_string : string) (total_len : Z) : string :=
  let minus_title := (total_len - Z.of_nat (String.length title_string) - 2)%Z in
  let left := (minus_title / 2)%Z in
  let right := if (minus_title mod 2 =? 0)%Z then (minus_title / 2)%Z else (minus_title / 2 + 1)%Z in
  times "*" left ++ (" " ++ title_string ++ " ") ++ times "*" right ++ newline.
Definition title (colours : string) (title_string : string) (color : option string) (total_len : Z) : string :=
  cprint colours (title_text title_string total_len) color.

(** Decimal digits of a natural number, and the last d digits. *)
Definition digit (n : nat) : string := String (ascii_of_nat (48 + n)) "".
Fixpoint digits_aux (fuel n : nat) : string :=
  match fuel with
  | O => ""
  | S fuel' => if (n <? 10)%nat then digit n else digits_aux fuel' (n / 10) ++ digit (n mod 10)
  end.
Definition digits (n : nat) : string := digits_aux (S n) n.
Fixpoint last_digits (d n : nat) : string :=
  match d with O => "" | S d' => last_digits d' (n / 10) ++ digit (n mod 10) end.
(** Python's format {:w.df} and {:+w.df} of an exact number: d > 0 decimals, ties to even,
    padded on the left to width w. *)
Definition pad_left (w : nat) (s : string) : string := times_nat " " (w - String.length s) ++ s.
Definition fixed (plus : bool) (w d : nat) (x : R) : string :=
  let n := Z.to_nat (rint (Rabs x * 10 ^ d)) in
  let sign := if Rltb x 0 then "-" else if plus then "+" else "" in
  pad_left w (sign ++ digits (n / 10 ^ d) ++ "." ++ last_digits d n).
(** {:ws} *)
Definition pad_right (w : nat) (s : string) : string := s ++ times_nat " " (w - String.length s).

(** qmix/misc/terminal.py:97-125 pvalf: the text for a complex and for a real number. *)
Definition pvalf_tail (units comment : string) : string :=
  pad_right 15 (if String.eqb units "" then "" else tab ++ "[" ++ units ++ "]") ++ (if String.eqb comment "" then "" else "  # " ++ comment).
Definition pvalf_complex (name : string) (val : C) (units comment : string) : string :=
  let re := Re val in let im := Im val in
  tab ++ pad_right 15 name ++ " = " ++ fixed false 7 3 re ++ (if Rltb im 0 then " - j" else " + j") ++ fixed false 7 3 (Rabs im) ++ pvalf_tail units comment.
Definition pvalf_real (name : string) (val : R) (units comment : string) : string :=
  tab ++ pad_right 15 name ++ " = " ++ fixed false 7 3 val ++ tab ++ pvalf_tail units comment.
(** qmix/misc/terminal.py:184-198 printc *)
Definition printc (z : C) : string :=
  let sign := if Rleb 0 (Im z) then "+" else "-" in
  fixed true 6 2 (Re z) ++ " " ++ sign ++ " j" ++ fixed false 5 2 (Im z).
