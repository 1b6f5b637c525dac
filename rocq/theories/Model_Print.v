(** Model of the printed summaries: EmbeddingCircuit and DCData as text, and the functions
    header and pvale of qmix/misc/terminal.py.  Numbers are exact; text is made of ASCII
    characters. *)
From Coq Require Import List ZArith Bool Arith Reals String Ascii.
From Coquelicot Require Import Complex.
From Verif Require Import Base Round Model_QtCurrent Model_Circuit Model_IVData Model_IFData Model_ExpData Model_Objects Model_Misc.
Import ListNotations.
Open Scope string_scope.

(** ** Number formats *)
(** {:.df} of a complex number. *)
Definition fixed_complex (d : nat) (z : C) : string := fixed false 0 d (Re z) ++ fixed true 0 d (Im z) ++ "j".
(** {:.dE} and {:.de}: one digit before the point, d > 0 digits after it, ties to even; the
    exponent has at least two digits. *)
Definition exponent10 (x : R) : Z := Int_part (ln (Rabs x) / ln 10).
Definition sci_parts (d : nat) (x : R) : nat * Z :=
  if Reqb x 0 then (0%nat, 0%Z) else
  let e := exponent10 x in
  let n := Z.to_nat (rint (Rabs x * powerRZ 10 (Z.of_nat d - e))) in
  if (n =? 10 ^ (d + 1))%nat then ((10 ^ d)%nat, (e + 1)%Z) else (n, e).
Definition sci (plus : bool) (letter : string) (d : nat) (x : R) : string :=
  let (n, e) := sci_parts d x in
  let sign := if Rltb x 0 then "-" else if plus then "+" else "" in
  let k := Z.to_nat (Z.abs e) in
  sign ++ digits (n / 10 ^ d) ++ "." ++ last_digits d n ++ letter ++ (if (e <? 0)%Z then "-" else "+") ++ (if (k <? 10)%nat then "0" else "") ++ digits k.
Definition sci_complex (letter : string) (d : nat) (z : C) : string := sci false letter d (Re z) ++ sci true letter d (Im z) ++ "j".

(** ** qmix/misc/terminal.py *)
(** qmix/misc/terminal.py:82-92 header *)
Definition header (colours header_string : string) (color : option string) : string :=
  cprint colours (tab ++ header_string ++ ":") color ++ cprint colours (tab ++ times "-" 50) None.
(** qmix/misc/terminal.py:128-148 pvale: the text for a complex and for a real number. *)
Definition pvale_comment (comment : string) : string := if String.eqb comment "" then "" else tab ++ tab ++ "# " ++ comment.
Definition pvale_complex (name : string) (val : C) (units comment : string) : string :=
  tab ++ pad_right 15 name ++ " = " ++ pad_left 7 (sci_complex "e" 1 val) ++ pad_right 15 (if String.eqb units "" then "" else tab ++ "[" ++ units ++ "]") ++ pvale_comment comment.
Definition pvale_real (name : string) (val : R) (units comment : string) : string :=
  tab ++ pad_right 15 name ++ " = " ++ pad_left 7 (sci false "e" 1 val) ++ pad_right 15 (if String.eqb units "" then "" else tab ++ tab ++ "[" ++ units ++ "]") ++ pvale_comment comment.

(** ** qmix/circuit.py *)
(** qmix/circuit.py:251-258 EmbeddingCircuit.__str__ (and __repr__) *)
Definition circuit_str (c : circ) : string :=
  let name := if String.eqb (c_name c) "" then "" else ": " ++ c_name c in
  "Embedding circuit (Tones:" ++ digits (c_num_f c) ++ ", Harmonics:" ++ digits (c_num_p c) ++ ")" ++ name.
(** A value that may not be finite (simplification: nan for all but -inf). *)
Definition show_x (show : R -> string) (x : xval) : string := match x with XFin x => show x | XNegInf => "-inf" | XNonFinite => "nan" end.
(** float(vt.real), and the quotient by freq * p. *)
Definition vt_real (vt : option C) : xval := match vt with Some z => XFin (Re z) | None => XNonFinite end.
Definition vt_photons (vt : option C) (fp : R) : xval := match vt with Some z => if Reqb fp 0 then XNonFinite else XFin (Re z / fp) | None => XNonFinite end.
Definition print (s : string) : string := s ++ newline.
(** The format strings str1 to str8 of lines 482-488. *)
Definition str1 (f p : nat) (freq : R) (comment : string) : string :=
  "   f=" ++ digits f ++ ", p=" ++ digits p ++ tab ++ tab ++ tab ++ "freq = " ++ fixed false 0 4 freq ++ " x " ++ digits p ++ tab ++ tab ++ comment.
Definition str2 (f p : nat) (fq : R) (comment : string) : string :=
  "   f=" ++ digits f ++ ", p=" ++ digits p ++ tab ++ tab ++ tab ++ fixed false 0 1 fq ++ " GHz x " ++ digits p ++ tab ++ tab ++ comment.
Definition str3 (x : xval) : string := tab ++ "Thev. voltage:" ++ tab ++ tab ++ show_x (fixed false 0 4) x ++ " * Vgap".
Definition str6 (x : xval) : string := tab ++ "              " ++ tab ++ tab ++ show_x (fixed false 0 4) x ++ " * Vph".
Definition str4 (z : C) : string := tab ++ "Thev. impedance:" ++ tab ++ fixed_complex 2 z ++ " * Rn".
Definition str7 (x : xval) : string := tab ++ "Avail. power:   " ++ tab ++ show_x (sci false "E" 2) x ++ " W".
Definition str8 (x : xval) : string := tab ++ "                " ++ tab ++ show_x (fixed false 0 3) x ++ " dBm".
(** Lines 491-498 and 500-514: what is printed for tone f and harmonic p. *)
Definition print_normalized (c : circ) (f p : nat) : res string :=
  let* freq := pyget (c_freq c) (Z.of_nat f) in
  let* vt := get2 (c_vt c) (Z.of_nat f) (Z.of_nat p) in
  let* zt := get2 (c_zt c) (Z.of_nat f) (Z.of_nat p) in
  let* comment := get2 (c_comment c) (Z.of_nat f) (Z.of_nat p) in
  Ok (cprint "" (str1 f p freq comment) (Some "GREEN") ++ print (str3 (vt_real vt)) ++ print (str4 zt)).
Definition print_units (c : circ) (fgap : R) (f p : nat) : res string :=
  let* freq := pyget (c_freq c) (Z.of_nat f) in
  let* vt := get2 (c_vt c) (Z.of_nat f) (Z.of_nat p) in
  let* zt := get2 (c_zt c) (Z.of_nat f) (Z.of_nat p) in
  let* power_w := available_power c (Z.of_nat f) (Z.of_nat p) "W" in
  let* power_dbm := available_power c (Z.of_nat f) (Z.of_nat p) "dBm" in
  let* comment := get2 (c_comment c) (Z.of_nat f) (Z.of_nat p) in
  Ok (cprint "" (str2 f p (freq * fgap / 10 ^ 9) comment) (Some "GREEN") ++ print (str3 (vt_real vt)) ++ print (str6 (vt_photons vt (freq * INR p))) ++
      print (str4 zt) ++ print (str7 power_w) ++ print (str8 power_dbm)).
(** qmix/circuit.py:477-515 print_info *)
Definition print_info (c : circ) : res string :=
  let block := match c_fgap c, c_vgap c, c_rn c with
               | Some fgap, Some _, Some _ => print_units c fgap
               | _, _, _ => print_normalized c
               end in
  let* body := foreach (seq 1 (c_num_f c)) (fun f out => foreach (seq 1 (c_num_p c)) (fun p out => let* s := block f p in Ok (out ++ s)) out) "" in
  Ok (print (circuit_str c) ++ body ++ print "").

(** ** qmix/exp/exp_data.py *)
(** qmix/exp/exp_data.py:211-232 DCData.__str__ *)
Definition row (label : string) (x : R) (unit : string) : string := tab ++ label ++ fixed false 6 2 x ++ unit ++ newline.
Definition dc_str (comment : string) (d : dcdata) : string :=
  let dc := d_dc d in let s := d_summary d in
  escape "35" ++ newline ++ "DC I-V data:" ++ escape "0" ++ " " ++ comment ++ newline ++ newline ++
  row ("Vgap:  " ++ tab ++ tab) (dc_vgap dc * 10 ^ 3) (tab ++ "mV") ++
  row ("fgap:  " ++ tab ++ tab) (dc_fgap dc / 10 ^ 9) (tab ++ "GHz") ++
  newline ++
  row ("Rn:    " ++ tab ++ tab) (dc_rn dc) (tab ++ "ohms") ++
  row ("Rsg:   " ++ tab ++ tab) (dc_rsg dc) (tab ++ "ohms") ++
  row ("Q:     " ++ tab ++ tab) (s_q s) "" ++
  newline ++
  row ("Jc:    " ++ tab ++ tab) (s_jc s / 10 ^ 7) (tab ++ "kA/cm^2") ++
  row ("Ileak: " ++ tab ++ tab) (s_ileak s * 10 ^ 6) (tab ++ "uA") ++
  newline ++
  row ("Offset:" ++ tab ++ tab) (fst (dc_offset dc) * 10 ^ 3) (tab ++ "mV") ++
  row ("       " ++ tab ++ tab) (snd (dc_offset dc) * 10 ^ 6) (tab ++ "uA") ++
  newline ++
  row ("Vint:  " ++ tab ++ tab) (dc_vint dc * 10 ^ 3) (tab ++ "mV") ++
  match d_if d with Some f => row ("IF noise:" ++ tab) (if_noise (snd f)) (tab ++ "K") | None => "" end.
(** qmix/exp/exp_data.py:234-238 DCData.__repr__ *)
Definition dc_repr (d : dcdata) : string :=
  "DC I-V curve: Vgap = " ++ fixed false 0 2 (dc_vgap (d_dc d) / (/ 10 ^ 3)) ++ " mV, Rn = " ++ fixed false 0 2 (dc_rn (d_dc d)) ++ " ohms".
