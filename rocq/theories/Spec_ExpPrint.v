(** Vocabulary for what is printed while experimental data are analysed. *)
From Coq Require Import List ZArith Bool Reals String Ascii.
From Coquelicot Require Import Complex.
From Verif Require Import Base Float Model_IVData Model_IFData Model_ExpData Model_Objects Model_ExpPrint Spec_Misc Spec_Print Spec_IFData Spec_IFShot Spec_HBText.
Import ListNotations.
Local Notation length := List.length.
Open Scope list_scope.

(** A normal resistance that looks wrong: below 1 ohm or above 50 ohms. *)
Definition warnings (rn : R) : list emsg :=
  (if Rlt_dec rn 1 then [LowResistance] else []) ++ (if Rlt_dec 50 rn then [HighResistance] else []).
(** n samples lie in the range for the fit of the shot noise: in the given ranges, or among those
    that are found (C147). *)
Definition samples_in_range (smooth : list R -> Z -> Z -> list R) (x y : list R) (vgap : R) (vshot : option shot_ranges) (n : nat) : Prop :=
  match vshot with
  | Some s => n = length (shot_samples (ranges_of s) vgap x y)
  | None => exists d1 d2 m ks, derivatives smooth x y d1 d2 /\ typical_slope x d1 d2 m /\ NoDup ks /\
              (forall k, In k ks <-> similar x d1 d2 m k /\ similar x d1 d2 m (S k)) /\ n = length ks
  end.
(** The warning is given if they are fewer than five. *)
Definition shot_warning (n : nat) : list emsg := if (n <? 5)%nat then [ShotFailed] else [].
(** The report of an impedance recovery: is the fit good; the embedding circuit with the power
    that is available from it; the junction with the power that is delivered to it.  Powers in nW,
    from voltages in volts and resistances in ohms. *)
Definition reports_recovery (vgap rn vph : R) (r : recovered) (l : list emsg) : Prop :=
  exists avail deliv,
    l = [Recovery; if rec_fit r then GoodFit else BadFit; EmbeddingCircuit; SourceVoltage (rec_vt r); SourceImpedance (rec_zt r); AvailPower avail;
         Junction; DriveLevel (rec_alpha r); JunctionImpedance (rec_zw r); DelivPower deliv] /\
    (forall V, rec_vt r = FV V -> Re (rec_zt r) * rn <> 0 -> avail = FV (10 ^ 9 * ((V * vgap) ^ 2 / (8 * (Re (rec_zt r) * rn)))))%R /\
    (forall z, rec_zw r = Some z -> Re z * rn <> 0 -> deliv = FV (10 ^ 9 * ((rec_alpha r * vph * vgap) ^ 2 / (2 * (Re z * rn)))))%R.
(** The values at the best bias voltage. *)
Definition reports_best (n : ifresults) (l : list emsg) : Prop :=
  exists t g db, nth_error (n_tn n) (n_best n) = Some t /\ nth_error (n_gain n) (n_best n) = Some g /\
    (forall x, g = FV x -> (0 < x)%R -> db = FV (10 * (ln x / ln 10))%R) /\ l = [NoiseTemp t; Gain db; IFNoise (if_noise (n_dcif n))].
(** What is printed before the analysis of a pumped measurement. *)
Definition heading (comment : string) (both : bool) (freq : R) : list emsg :=
  [Importing comment; Files; IVFile] ++ (if both then [HotFile; ColdFile] else []) ++ [Frequency freq].

(** ** The text *)
Open Scope string_scope.
(** In the colour with that number. *)
Definition coloured (n s : string) : string := String (ascii_of_nat 27) "[" ++ n ++ "m" ++ s ++ String (ascii_of_nat 27) "[0m".
Definition nl : string := String (ascii_of_nat 10) "".
(** A number with d decimals next to x, and a sign if it is asked for; inf and nan. *)
Definition signed_near (d : nat) (s : string) (x : R) : Prop :=
  near d s x /\ exists bl sign t, s = bl ++ sign ++ t /\ blank bl /\ sign = (if Rlt_dec x 0 then "-" else "+").
Definition value_near (plus : bool) (d : nat) (s : string) (x : fl) : Prop :=
  match x with
  | FV x => if plus then signed_near d s x else near d s x
  | FPInf => exists bl, blank bl /\ s = bl ++ (if plus then "+" else "") ++ "inf"
  | FNInf => exists bl, blank bl /\ s = bl ++ "-inf"
  | FNaN => exists bl, blank bl /\ s = bl ++ (if plus then "+" else "") ++ "nan"
  end.
Definition signed_complex_near (d : nat) (s : string) (z : C) : Prop :=
  exists bl a b, blank bl /\ s = bl ++ a ++ b ++ "j" /\ signed_near d a (fst z) /\ signed_near d b (snd z).
(** The text s says what the message m means. *)
Definition esays (m : emsg) (s : string) : Prop :=
  match m with
  | LowResistance => s = line (coloured "91" (nl ++ "Warning: Normal resistance is very low...")) ++ line (coloured "91" ("         Are you sure you have the right units?" ++ nl))
  | HighResistance => s = line (coloured "91" (nl ++ "Warning: Normal resistance is very high...")) ++ line (coloured "91" ("         Are you sure you have the right units?" ++ nl))
  | ShotFailed => s = line (coloured "91" (tabs 2 ++ "Shot noise fit failed.")) ++ line (coloured "91" (tabs 2 ++ "Selecting all voltages above 2*Vgap."))
  | Summary comment d => exists t, describes_table (dc_table d) t /\
      s = line (text [String (ascii_of_nat 27) "[35m"; "DC I-V data:" ++ String (ascii_of_nat 27) "[0m" ++ " " ++ comment; ""] ++ t)
  | Importing comment => s = line (coloured "95" ("Importing: " ++ comment))
  | Files => s = line " -> Files:"
  | IVFile => s = line (tabs 1 ++ "I-V file:    " ++ tabs 1 ++ "Numpy array")
  | HotFile => s = line (tabs 1 ++ "IF hot file: " ++ tabs 1 ++ "Numpy array")
  | ColdFile => s = line (tabs 1 ++ "IF cold file:" ++ tabs 1 ++ "Numpy array")
  | Frequency f => exists a, s = line (" -> Frequency: " ++ a ++ " GHz") /\ near 1 a f
  | Recovery => s = line " -> Impedance recovery:"
  | GoodFit => s = line (coloured "92" (tabs 1 ++ "- good fit"))
  | BadFit => s = line (coloured "93" (tabs 1 ++ "- bad fit"))
  | EmbeddingCircuit => s = line (tabs 1 ++ "- embedding circuit:")
  | SourceVoltage v => exists a, s = line (tabs 2 ++ "- voltage:     " ++ tabs 1 ++ a ++ tabs 2 ++ "* Vgap") /\ value_near true 2 a v
  | SourceImpedance z => exists a, s = line (tabs 2 ++ "- impedance:   " ++ tabs 1 ++ a ++ tabs 1 ++ "* Rn") /\ signed_complex_near 2 a z
  | AvailPower p => exists a, s = line (tabs 2 ++ "- avail. power:" ++ tabs 1 ++ a ++ tabs 2 ++ "nW") /\ value_near true 2 a p
  | Junction => s = line (tabs 1 ++ "- junction:")
  | DriveLevel x => exists a, s = line (tabs 2 ++ "- drive level:" ++ tabs 1 ++ a) /\ signed_near 2 a x
  | JunctionImpedance z => exists a, s = line (tabs 2 ++ "- impedance:" ++ tabs 1 ++ a ++ tabs 1 ++ "* Rn") /\
      match z with Some z => signed_complex_near 2 a z | None => exists bl, blank bl /\ a = bl ++ "+nan+nanj" end
  | DelivPower p => exists a, s = line (tabs 2 ++ "- deliv. power:" ++ tabs 1 ++ a ++ tabs 2 ++ "nW") /\ value_near true 2 a p
  | AnalyzeIF => s = line (coloured "95" " -> Analyze IF data:")
  | NoiseTemp t => exists a, s = line (tabs 1 ++ "- noise temp:" ++ tabs 1 ++ a ++ " K") /\ value_near false 1 a t
  | Gain g => exists a, s = line (tabs 1 ++ "- gain:" ++ tabs 2 ++ a ++ " dB") /\ value_near true 2 a g
  | IFNoise t => exists a, s = line (tabs 1 ++ "- IF noise:" ++ tabs 1 ++ a ++ " K") /\ signed_near 2 a t
  | Blank => s = line ""
  end.
