(** Vocabulary for the printed summaries: how a reader understands the text. *)
From Coq Require Import List ZArith Reals String Ascii.
From Coquelicot Require Import Complex.
From Verif Require Import Base Round Model_QtCurrent Model_Circuit Spec_Circuit Model_IVData Model_IFData Model_ExpData Model_Objects Model_Misc Spec_Misc.
Import ListNotations.
Open Scope string_scope.

(** The text denotes the complex number z: the real part, the imaginary part with its sign, j. *)
Definition complex_text (s : string) (z : C) : Prop :=
  exists a sign b, s = a ++ sign ++ b ++ "j" /\ (sign = "+" \/ sign = "-") /\ denotes a (fst z) /\ denotes (sign ++ b) (snd z).
(** Scientific notation: sign, one digit, a point, digits, a letter, a sign, the exponent. *)
Definition sci_denotes (letter s : string) (x : R) : Prop :=
  exists sign a b es k n m e, s = sign ++ a ++ "." ++ b ++ letter ++ es ++ k /\
    read_digits 0 a = Some n /\ String.length a = 1%nat /\ read_digits 0 b = Some m /\ read_digits 0 k = Some e /\ (2 <= String.length k)%nat /\
    (es = "+" \/ es = "-") /\
    let v := ((INR n + INR m / 10 ^ String.length b) * powerRZ 10 (if String.eqb es "-" then - Z.of_nat e else Z.of_nat e))%R in
    (((sign = "" \/ sign = "+") /\ x = v) \/ (sign = "-" /\ x = (- v)%R)).
(** A number with d digits after the first, next to x. *)
Definition sci_near (letter : string) (d : nat) (s : string) (x : R) : Prop :=
  exists v, sci_denotes letter s v /\ (Rabs (v - x) <= Rabs x / (2 * 10 ^ d))%R.
Definition sci_complex_near (letter : string) (d : nat) (s : string) (z : C) : Prop :=
  exists a sign b, s = a ++ sign ++ b ++ "j" /\ (sign = "+" \/ sign = "-") /\ sci_near letter d a (fst z) /\ sci_near letter d (sign ++ b) (snd z).
Definition tabs (n : nat) : string := many (ascii_of_nat 9) n.
(** In green. *)
Definition green (s : string) : string := String (ascii_of_nat 27) "[92m" ++ s ++ String (ascii_of_nat 27) "[0m".
Definition line (s : string) : string := s ++ String (ascii_of_nat 10) "".
(** Lines one after the other. *)
Definition text (l : list string) : string := List.fold_right (fun s r => line s ++ r) "" l.
(** The text that describes harmonic p of tone f of a circuit in normalised units: the numbers f
    and p, the frequency, the comment, the voltage v and the impedance of the source. *)
Definition describes_normalized (c : circ) (f p : nat) (v : R) (s : string) : Prop :=
  exists freq z comment nf np sf sv sz, nth_error (c_freq c) f = Some freq /\ cell (c_zt c) f p = Some z /\ cell (c_comment c) f p = Some comment /\
    read_digits 0 nf = Some f /\ read_digits 0 np = Some p /\ denotes sf (round_dec 4 freq) /\ denotes sv (round_dec 4 v) /\ complex_text sz (round_dec 2 (fst z), round_dec 2 (snd z)) /\
    s = text [green ("   f=" ++ nf ++ ", p=" ++ np ++ tabs 3 ++ "freq = " ++ sf ++ " x " ++ np ++ tabs 2 ++ comment);
              tabs 1 ++ "Thev. voltage:" ++ tabs 2 ++ sv ++ " * Vgap";
              tabs 1 ++ "Thev. impedance:" ++ tabs 1 ++ sz ++ " * Rn"].
(** The same with the gap frequency, the gap voltage and the normal resistance: the frequency in
    GHz, the voltage also in photon voltages, and the available power w in watts and in dBm. *)
Definition describes_units (c : circ) (fgap : R) (f p : nat) (v : R) (w : R) (s : string) : Prop :=
  exists freq z comment nf np sf sv su sz sw sd, nth_error (c_freq c) f = Some freq /\ cell (c_zt c) f p = Some z /\ cell (c_comment c) f p = Some comment /\
    read_digits 0 nf = Some f /\ read_digits 0 np = Some p /\ denotes sf (round_dec 1 (freq * fgap / 10 ^ 9)) /\ denotes sv (round_dec 4 v) /\
    denotes su (round_dec 4 (v / (freq * INR p))) /\ complex_text sz (round_dec 2 (fst z), round_dec 2 (snd z)) /\
    sci_near "E" 2 sw w /\ ((0 < w)%R -> denotes sd (round_dec 3 (10 * (ln (w * 1000) / ln 10)))) /\ (w = 0%R -> sd = "-inf") /\
    s = text [green ("   f=" ++ nf ++ ", p=" ++ np ++ tabs 3 ++ sf ++ " GHz x " ++ np ++ tabs 2 ++ comment);
              tabs 1 ++ "Thev. voltage:" ++ tabs 2 ++ sv ++ " * Vgap";
              tabs 1 ++ "              " ++ tabs 2 ++ su ++ " * Vph";
              tabs 1 ++ "Thev. impedance:" ++ tabs 1 ++ sz ++ " * Rn";
              tabs 1 ++ "Avail. power:   " ++ tabs 1 ++ sw ++ " W";
              tabs 1 ++ "                " ++ tabs 1 ++ sd ++ " dBm"].
(** All blocks, harmonic by harmonic and tone by tone. *)
Definition blocks (num_f num_p : nat) (block : nat -> nat -> string) : string :=
  String.concat "" (List.flat_map (fun f => List.map (block f) (seq 1 num_p)) (seq 1 num_f)).
(** A table: an empty line, or a name, a quantity with two decimals and its unit. *)
Definition entry : Type := option (string * R * string).
Definition shows (e : entry) (s : string) : Prop :=
  match e with
  | None => s = ""
  | Some (name, x, unit) => exists num, denotes num (round_dec 2 x) /\ (6 <= String.length num)%nat /\ s = tabs 1 ++ name ++ num ++ unit
  end.
Definition describes_table (table : list entry) (s : string) : Prop := exists lines, List.Forall2 shows table lines /\ s = text lines.
(** The quantities of a dc measurement: voltages in mV, currents in uA, frequencies in GHz,
    resistances in ohms, the current density (A/m^2) in kA/cm^2. *)
Definition quantity (name : string) (x : R) (unit : string) : entry := Some (name, x, unit).
Definition dc_table (d : dcdata) : list entry :=
  List.app
  [quantity ("Vgap:  " ++ tabs 2) (dc_vgap (d_dc d) * 1000) (tabs 1 ++ "mV");
   quantity ("fgap:  " ++ tabs 2) (dc_fgap (d_dc d) / 1000000000) (tabs 1 ++ "GHz");
   None;
   quantity ("Rn:    " ++ tabs 2) (dc_rn (d_dc d)) (tabs 1 ++ "ohms");
   quantity ("Rsg:   " ++ tabs 2) (dc_rsg (d_dc d)) (tabs 1 ++ "ohms");
   quantity ("Q:     " ++ tabs 2) (s_q (d_summary d)) "";
   None;
   quantity ("Jc:    " ++ tabs 2) (s_jc (d_summary d) / 1000 / 10000) (tabs 1 ++ "kA/cm^2");
   quantity ("Ileak: " ++ tabs 2) (s_ileak (d_summary d) * 1000000) (tabs 1 ++ "uA");
   None;
   quantity ("Offset:" ++ tabs 2) (fst (dc_offset (d_dc d)) * 1000) (tabs 1 ++ "mV");
   quantity ("       " ++ tabs 2) (snd (dc_offset (d_dc d)) * 1000000) (tabs 1 ++ "uA");
   None;
   quantity ("Vint:  " ++ tabs 2) (dc_vint (d_dc d) * 1000) (tabs 1 ++ "mV")]
  match d_if d with Some f => [quantity ("IF noise:" ++ tabs 1) (if_noise (snd f)) (tabs 1 ++ "K")] | None => [] end.
(** n fills a field of w characters: blanks after it. *)
Definition fills (w : nat) (name field : string) : Prop := exists bl, blank bl /\ field = name ++ bl /\ (w <= String.length field)%nat /\ (bl <> "" -> String.length field = w).
