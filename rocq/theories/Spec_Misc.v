(** Specification vocabulary for terminal output: how a reader understands numbers. *)
From Coq Require Import List Reals String Ascii.
From Coquelicot Require Import Complex.
Import ListNotations.
Open Scope string_scope.

(** The natural number that a string of decimal digits denotes; acc comes before it. *)
Fixpoint read_digits (acc : nat) (s : string) : option nat :=
  match s with
  | "" => Some acc
  | String c s' => let k := nat_of_ascii c in if (Nat.leb 48 k && Nat.leb k 57)%bool then read_digits (10 * acc + (k - 48)) s' else None
  end.
(** Blanks only. *)
Fixpoint blank (s : string) : Prop := match s with "" => True | String c s' => c = " "%char /\ blank s' end.
(** The text denotes the number x: blanks, perhaps a sign, digits, a point and digits. *)
Definition denotes (s : string) (x : R) : Prop :=
  exists bl sign a b n m, s = bl ++ sign ++ a ++ "." ++ b /\ blank bl /\ read_digits 0 a = Some n /\ read_digits 0 b = Some m /\ a <> "" /\
    let v := (INR n + INR m / 10 ^ String.length b)%R in (((sign = "" \/ sign = "+") /\ x = v) \/ (sign = "-" /\ x = - v)%R).
(** The text denotes the complex number z: the real part, a sign, j and a number. *)
Definition complex_denotes (s : string) (z : C) : Prop :=
  exists a sign b x y, s = a ++ " " ++ sign ++ " j" ++ b /\ denotes a x /\ denotes b y /\
    ((sign = "+" /\ z = (x, y)) \/ (sign = "-" /\ z = (x, - y)%R)).
(** n times the character c. *)
Fixpoint many (c : ascii) (n : nat) : string := match n with O => "" | S n' => String c (many c n') end.
(** The unit in brackets and the comment after a hash, nothing for empty ones. *)
Definition tabulator : string := String (ascii_of_nat 9) "".
Definition unit_field (units : string) : string := match units with "" => "" | _ => tabulator ++ "[" ++ units ++ "]" end.
Definition comment_field (comment : string) : string := match comment with "" => "" | _ => "  # " ++ comment end.
(** The name in capital letters. *)
Definition small_letters : string := "abcdefghijklmnopqrstuvwxyz".
Definition capital_letters : string := "ABCDEFGHIJKLMNOPQRSTUVWXYZ".
Definition capital (c : ascii) : ascii :=
  match index 0 (String c "") small_letters with
  | Some n => match get n capital_letters with Some d => d | None => c end
  | None => c end.
Fixpoint in_capitals (s : string) : string := match s with "" => "" | String c s' => String (capital c) (in_capitals s') end.
(** The styles and the numbers that select them in an escape sequence of the terminal. *)
Definition styles : list (string * string) :=
  [("CYAN", "36"); ("MAGENTA", "35"); ("PINK", "95"); ("BLUE", "94"); ("GREEN", "92"); ("YELLOW", "93"); ("RED", "91");
   ("HEADER", "95"); ("HEADER1", "95"); ("HEADER2", "36"); ("HEADER3", "92"); ("OKBLUE", "94"); ("OKGREEN", "92"); ("WARNING", "93"); ("FAIL", "91");
   ("BOLD", "1"); ("UNDERLINE", "4"); ("INVERSE", "7"); ("BLINK", "5"); ("ENDC", "0")].
Definition escape_sequence (n : string) : string := String (ascii_of_nat 27) ("[" ++ n ++ "m").
