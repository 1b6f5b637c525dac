(** Model of the text file functions of qmix/circuit.py: save_info and
    read_circuit, at the level of characters.  A file's text is a list of ASCII
    characters; opening the file is left out. *)
From Coq Require Import List ZArith Bool Ascii String Reals.
From Coquelicot Require Import Complex.
From Verif Require Import Base Round Model_QtCurrent Model_Circuit.
Import ListNotations.
Open Scope Z_scope.

Definition text := list ascii.
Definition L (s : string) : text := list_ascii_of_string s.
Definition tab_char : ascii := ascii_of_nat 9.
Definition nl : ascii := ascii_of_nat 10.

(** ** Writing numbers *)

Definition dig (k : Z) : ascii := ascii_of_nat (48 + Z.to_nat k).

(** str(n) for n >= 0 (the first argument only bounds the recursion). *)
Fixpoint digits_fuel (k : nat) (n : Z) : text :=
  match k with
  | O => []
  | S k' => (if n <? 10 then [] else digits_fuel k' (n / 10)) ++ [dig (n mod 10)]
  end.
Definition digits (n : Z) : text := digits_fuel (S (Z.to_nat n)) n.

(** The last d decimal digits of n. *)
Fixpoint pad (d : nat) (n : Z) : text :=
  match d with O => [] | S d' => pad d' (n / 10) ++ [dig (n mod 10)] end.

(** '{:.df}' of |x|: correctly rounded, ties to even. *)
Definition fmt_abs (d : nat) (x : R) : text :=
  let n := rint (Rabs x * 10 ^ d) in
  digits (n / 10 ^ Z.of_nat d) ++ L "." ++ pad d n.

(** '{:.df}' of a float (d >= 1); a minus sign is written also when the digits
    are all zero. *)
Definition fmt (d : nat) (x : R) : text :=
  (if Rltb x 0 then L "-" else []) ++ fmt_abs d x.

(** '{:.df}' of a complex number. *)
Definition fmt_complex (d : nat) (z : C) : text :=
  fmt d (Re z) ++ (if Rltb (Im z) 0 then L "-" else L "+") ++ fmt_abs d (Im z) ++ L "j".

(** Simplification: the values that are not finite are one value, [None], which is
    written as nan+nanj (Python also writes inf, and the part that is finite). *)
Definition fmt_cell (d : nat) (z : option C) : text :=
  match z with Some z => fmt_complex d z | None => L "nan+nanj" end.

(** ** qmix/circuit.py:516-543 save_info *)

Definition line1 (f p : nat) (freq : R) : text :=
  L "   f=" ++ digits (Z.of_nat f) ++ L ", p=" ++ digits (Z.of_nat p) ++ [tab_char; tab_char; tab_char]
  ++ L "freq = " ++ fmt 4 freq ++ L " x " ++ digits (Z.of_nat p) ++ [nl].
Definition line2 (vt : option C) : text :=
  tab_char :: L "Thev. voltage:" ++ [tab_char; tab_char] ++ fmt_cell 4 vt ++ L " V / V_gap" ++ [nl].
Definition line3 (zt : C) : text :=
  tab_char :: L "Thev. impedance:" ++ [tab_char] ++ fmt_complex 2 zt ++ L " ohms / R_N" ++ [nl].

Definition header (num_f num_p : nat) : list text :=
  [ L "Embedding Circuit:" ++ [nl];
    tab_char :: L "Number of tones:     " ++ digits (Z.of_nat num_f) ++ [nl];
    tab_char :: L "Number of harmonics: " ++ digits (Z.of_nat num_p) ++ [nl] ].

Definition save_info (c : circ) : res text :=
  let* body :=
    foreach (zrange 1 (Z.of_nat (c_num_f c) + 1)) (fun f out =>
    foreach (zrange 1 (Z.of_nat (c_num_p c) + 1)) (fun p out =>
      let* freq := pyget (c_freq c) f in
      let* vt := get2 (c_vt c) f p in
      let* zt := get2 (c_zt c) f p in
      Ok (out ++ line1 (Z.to_nat f) (Z.to_nat p) freq ++ line2 vt ++ line3 zt)) out) [] in
  Ok (List.concat (header (c_num_f c) (c_num_p c)) ++ body).

(** ** Reading text *)

(** file.readlines(): lines keep their newline. *)
Fixpoint readlines_acc (cur : text) (t : text) : list text :=
  match t with
  | [] => match cur with [] => [] | _ => [rev cur] end
  | a :: t' => if Ascii.eqb a nl then rev (a :: cur) :: readlines_acc [] t' else readlines_acc (a :: cur) t'
  end.
Definition readlines (t : text) : list text := readlines_acc [] t.

(** ASCII whitespace of str.split(). *)
Definition is_space (a : ascii) : bool :=
  let n := nat_of_ascii a in (((9 <=? n) && (n <=? 13)) || ((28 <=? n) && (n <=? 32)))%nat.

Fixpoint split_acc (cur : text) (t : text) : list text :=
  match t with
  | [] => match cur with [] => [] | _ => [rev cur] end
  | a :: t' => if is_space a
               then match cur with [] => split_acc [] t' | _ => rev cur :: split_acc [] t' end
               else split_acc (a :: cur) t'
  end.
Definition split (t : text) : list text := split_acc [] t.

Definition is_digit (a : ascii) : bool := let n := nat_of_ascii a in ((48 <=? n) && (n <=? 57))%nat.
Definition digit_val (a : ascii) : Z := Z.of_nat (nat_of_ascii a - 48).

Definition value (l : text) : Z := fold_left (fun acc a => acc * 10 + digit_val a) l 0.

(** int(s), for unsigned decimal digits; other forms that int accepts (sign,
    underscores, surrounding blanks) are not modelled, save_info never writes them. *)
Definition parse_int (l : text) : res Z :=
  match l with [] => Err ValueError | _ => if forallb is_digit l then Ok (value l) else Err ValueError end.

Fixpoint span (q : ascii -> bool) (l : text) : text * text :=
  match l with
  | [] => ([], [])
  | a :: l' => if q a then let '(u, v) := span q l' in (a :: u, v) else ([], l)
  end.

(** Unsigned decimal with an optional fraction.  float() and complex() also accept
    exponents, inf, nan, blanks and parentheses; save_info never writes them for
    finite values. *)
Definition parse_ufloat (l : text) : res R :=
  let '(a, r) := span is_digit l in
  match r with
  | [] => let* n := parse_int a in Ok (IZR n)
  | dot :: b =>
    if Ascii.eqb dot "."%char then
      let* n := parse_int a in
      let* m := parse_int b in
      Ok (IZR (n * 10 ^ Z.of_nat (List.length b) + m) / 10 ^ List.length b)%R
    else Err ValueError
  end.

Definition take_sign (l : text) : R * text :=
  match l with
  | a :: l' => if Ascii.eqb a "-"%char then ((-1)%R, l') else if Ascii.eqb a "+"%char then (1%R, l') else (1%R, l)
  | [] => (1%R, l)
  end.

(** float(s) *)
Definition parse_float (l : text) : res R :=
  let '(s, r) := take_sign l in let* x := parse_ufloat r in Ok (s * x)%R.

(** complex(s): a real part, optionally followed by a signed imaginary part and j;
    or an imaginary part alone. *)
Definition is_numchar (a : ascii) : bool := is_digit a || Ascii.eqb a "."%char.
Definition is_sign (a : ascii) : bool := Ascii.eqb a "+"%char || Ascii.eqb a "-"%char.
Definition is_j (l : text) : bool := match l with [a] => Ascii.eqb a "j"%char || Ascii.eqb a "J"%char | _ => false end.

Definition parse_complex (l : text) : res C :=
  let '(s, r) := take_sign l in
  let '(a, r1) := span is_numchar r in
  let* x := parse_ufloat a in
  match r1 with
  | [] => Ok (RtoC (s * x))
  | b :: r2 =>
    if is_sign b then
      let '(s', _) := take_sign [b] in
      let '(a', r3) := span is_numchar r2 in
      let* y := parse_ufloat a' in
      if is_j r3 then Ok ((s * x)%R, (s' * y)%R) else Err ValueError
    else if is_j r1 then Ok (0%R, (s * x)%R) else Err ValueError
  end.

(** complex(s) for a value that may not be finite; of the ways to write such a value,
    only the one above is modelled. *)
Definition text_eqb (a b : text) : bool := if list_eq_dec ascii_dec a b then true else false.
Definition parse_cell (l : text) : res (option C) :=
  if text_eqb l (L "nan+nanj") then Ok None else let* z := parse_complex l in Ok (Some z).

(** int(re.search(r'\d+', s).group()); no match raises AttributeError. *)
Definition search_int (l : text) : res Z :=
  let '(_, r) := span (fun a => negb (is_digit a)) l in
  let '(d, _) := span is_digit r in
  match d with [] => Err AttributeError | _ => Ok (value d) end.

(** ** qmix/circuit.py:581-618 read_circuit *)
Section Read.
Variables h e : R.

Definition read_step (data : list text) (c : circ) (i : nat) (line : text) : res circ :=
  let split_line := split line in
  let* w0 := pyget split_line 0 in
  let* a := pyget w0 0 in
  if Ascii.eqb a "f"%char then
    let* f := search_int w0 in
    let* w1 := pyget split_line 1 in
    let* p := search_int w1 in
    let* w4 := pyget split_line 4 in
    let* freq := parse_float w4 in
    let* l2 := pyget data (Z.of_nat i + 1) in
    let* v := pyget (split l2) 2 in
    let* vt := parse_cell v in
    let* l3 := pyget data (Z.of_nat i + 2) in
    let* z := pyget (split l3) 2 in
    let* zt := parse_complex z in
    let* c := put_freq c f freq in
    let* c := put_vt c f p vt in
    put_zt c f p zt
  else Ok c.

Definition read_circuit (t : text) : res circ :=
  let data := readlines t in
  let* l1 := pyget data 1 in
  let* w1 := pyget (split l1) (-1) in
  let* num_f := parse_int w1 in
  let* l2 := pyget data 2 in
  let* w2 := pyget (split l2) (-1) in
  let* num_p := parse_int w2 in
  let* c := init h e (PInt num_f) (PInt num_p) 0 2 (PInt 201) None None None "" in
  let data := pyslice data (Some 3) None in
  foreach (List.combine (seq 0 (List.length data)) data) (fun il c => read_step data c (fst il) (snd il)) c.
End Read.
