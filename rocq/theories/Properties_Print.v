(** Properties C123-C125: the printed summaries of circuits and measurements, and numbers in
    scientific notation.  Vocabulary in Spec_Misc.v and Spec_Print.v. *)
From Coq Require Import List ZArith Bool Arith Reals Lra Lia String Ascii.
From Coquelicot Require Import Complex Rcomplements.
From Verif Require Import Base Round Model_QtCurrent Model_Circuit Spec_Circuit Proof_Circuit Proof_CircuitWit Model_IVData Model_IFData Model_ExpData Model_Objects Model_Misc Spec_Misc Proof_Misc Model_Print Spec_Print Proof_Print Proof_Print2.
Import ListNotations.
Open Scope R_scope.

(** ** C123 *)
(** Without a gap frequency, gap voltage or normal resistance. *)
Theorem C123_normalized_partial : forall c, well_shaped c -> c_fgap c = None \/ c_vgap c = None \/ c_rn c = None ->
  (forall f p, (1 <= f <= c_num_f c)%nat -> (1 <= p <= c_num_p c)%nat -> exists z, cell (c_vt c) f p = Some (Some z)) ->
  exists a b block, read_digits 0 a = Some (c_num_f c) /\ read_digits 0 b = Some (c_num_p c) /\
  print_info c = Ok (line ("Embedding circuit (Tones:" ++ a ++ ", Harmonics:" ++ b ++ ")" ++ (if String.eqb (c_name c) "" then "" else ": " ++ c_name c)) ++ blocks (c_num_f c) (c_num_p c) block ++ line "")%string /\
  forall f p, (1 <= f <= c_num_f c)%nat -> (1 <= p <= c_num_p c)%nat -> exists z, cell (c_vt c) f p = Some (Some z) /\ describes_normalized c f p (fst z) (block f p).
Proof. exact info_normalized. Qed.
Print Assumptions C123_normalized_partial.
Theorem C123_units_partial : forall c fgap vgap rn, well_shaped c -> c_fgap c = Some fgap -> c_vgap c = Some vgap -> c_rn c = Some rn ->
  (forall f p, (1 <= f <= c_num_f c)%nat -> (1 <= p <= c_num_p c)%nat -> exists z, cell (c_vt c) f p = Some (Some z)) ->
  (forall f x, (1 <= f)%nat -> nth_error (c_freq c) f = Some x -> x <> 0) ->
  exists a b block, read_digits 0 a = Some (c_num_f c) /\ read_digits 0 b = Some (c_num_p c) /\
  print_info c = Ok (line ("Embedding circuit (Tones:" ++ a ++ ", Harmonics:" ++ b ++ ")" ++ (if String.eqb (c_name c) "" then "" else ": " ++ c_name c)) ++ blocks (c_num_f c) (c_num_p c) block ++ line "")%string /\
  forall f p, (1 <= f <= c_num_f c)%nat -> (1 <= p <= c_num_p c)%nat -> exists v z, cell (c_vt c) f p = Some (Some v) /\ cell (c_zt c) f p = Some z /\
    describes_units c fgap f p (fst v) (if Reqb (fst z * rn) 0 then 0 else Cmod (Cmult v (RtoC vgap)) ^ 2 / (8 * (fst z * rn))) (block f p).
Proof. exact info_units. Qed.
Print Assumptions C123_units_partial.
(** The text of a circuit in normalised units is the same whatever the imaginary parts of its
    source voltages. *)
Theorem C123_imaginary_refuted : forall c c', same_but false true false false false true c c' -> c_fgap c = None \/ c_vgap c = None \/ c_rn c = None ->
  (forall f p, option_map (option_map Re) (cell (c_vt c) f p) = option_map (option_map Re) (cell (c_vt c') f p)) -> List.map (@List.length _) (c_vt c') = List.map (@List.length _) (c_vt c) ->
  print_info c' = print_info c.
Proof. exact imaginary_lost'. Qed.
Print Assumptions C123_imaginary_refuted.
(** A circuit that meets the hypotheses in normalised units and one that meets them in SI units. *)
Example C123_case : (forall z, well_shaped (print_c z) /\ c_fgap (print_c z) = None /\
    forall f p, (1 <= f <= c_num_f (print_c z))%nat -> (1 <= p <= c_num_p (print_c z))%nat -> exists v, cell (c_vt (print_c z)) f p = Some (Some v)) /\
  well_shaped ex_c /\ finite_vt ex_c /\ c_vgap ex_c = Some (28 / 10000) /\ (forall f x, (1 <= f)%nat -> nth_error (c_freq ex_c) f = Some x -> x <> 0).
Proof.
  split; [intros z; split; [apply print_shape|split; [reflexivity|apply print_finite]]|]. split; [apply ex_saveable|]. split; [apply ex_saveable|]. split; [reflexivity|].
  intros [|[|[|f]]] x H E; [lia| | |destruct f; discriminate]; injection E as <-; lra.
Qed.
(** Two circuits that differ in the imaginary part of a voltage. *)
Example C123_imaginary_case : same_but false true false false false true (print_c (RtoC 1)) (print_c (1, 1)) /\ cell (c_vt (print_c (RtoC 1))) 1 1 = Some (Some (1, 0)) /\
  cell (c_vt (print_c (1, 1))) 1 1 = Some (Some (1, 1)) /\ print_info (print_c (1, 1)) = print_info (print_c (RtoC 1)).
Proof. exact imaginary_case. Qed.

(** ** C124 *)
(** {:.de}: one digit, d more digits, an exponent of at least two digits; within half a unit of
    the last digit. *)
Theorem C124_number : forall plus letter d x, sci_near letter d (sci plus letter d x) x.
Proof. exact sci_ok. Qed.
Print Assumptions C124_number.
Theorem C124_pvale_real : forall name x units comment, exists n bl num u,
  pvale_real name x units comment = (tabs 1 ++ n ++ " = " ++ bl ++ num ++ u ++ (if String.eqb comment "" then "" else tabs 2 ++ "# " ++ comment))%string /\
  fills 15 name n /\ blank bl /\ sci_near "e" 1 num x /\ fills 15 (if String.eqb units "" then "" else tabs 2 ++ "[" ++ units ++ "]")%string u.
Proof. exact pvale_real_ok. Qed.
Print Assumptions C124_pvale_real.
Theorem C124_pvale_complex : forall name z units comment, exists n bl num u,
  pvale_complex name z units comment = (tabs 1 ++ n ++ " = " ++ bl ++ num ++ u ++ (if String.eqb comment "" then "" else tabs 2 ++ "# " ++ comment))%string /\
  fills 15 name n /\ blank bl /\ sci_complex_near "e" 1 num z /\ fills 15 (if String.eqb units "" then "" else tabs 1 ++ "[" ++ units ++ "]")%string u.
Proof. exact pvale_complex_ok. Qed.
Print Assumptions C124_pvale_complex.
(** 9.996 has exponent 0 but is written 1.00e+01. *)
Example C124_case : sci false "e" 2 (9996 / 1000) = "1.00e+01"%string.
Proof. exact sci_case. Qed.

(** ** C125 *)
Theorem C125_str : forall comment d, exists s, describes_table (dc_table d) s /\
  dc_str comment d = (text [String (ascii_of_nat 27) "[35m"; "DC I-V data:" ++ String (ascii_of_nat 27) "[0m" ++ " " ++ comment; ""] ++ s)%string.
Proof. exact dc_str_ok. Qed.
Print Assumptions C125_str.
Theorem C125_repr : forall d, exists v r, denotes v (round_dec 2 (dc_vgap (d_dc d) * 1000)) /\ denotes r (round_dec 2 (dc_rn (d_dc d))) /\
  dc_repr d = ("DC I-V curve: Vgap = " ++ v ++ " mV, Rn = " ++ r ++ " ohms")%string.
Proof. exact dc_repr_ok. Qed.
Print Assumptions C125_repr.
(** The digits of a quantity: 2.735 mV (a tie, to the even digit). *)
Example C125_case : row "Vgap:" (2735 / 1000) " mV" = (tabs 1 ++ "Vgap:" ++ "  2.74" ++ " mV" ++ String (ascii_of_nat 10) "")%string.
Proof. exact row_case. Qed.
