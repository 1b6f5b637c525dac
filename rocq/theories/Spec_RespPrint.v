(** Vocabulary for the report of the interpolation of a response function. *)
From Coq Require Import List ZArith Bool Reals String.
From Verif Require Import Base Model_RespFn Model_RespPrint Spec_Misc Spec_Print Spec_HBText.
Import ListNotations.
Local Notation length := List.length.
Open Scope list_scope.

(** The samples between -34 and 34. *)
Definition samples (v c : list R) : list (R * R) :=
  filter (fun p => if Rlt_dec (-34) (fst p) then if Rlt_dec (fst p) 34 then true else false else false) (List.combine v c).
(** average: the mean distance between the samples and the curve f; top: the largest value of
    sample minus curve, at the voltage at_v. *)
Definition deviations (v c : list R) (f : R -> R) (average top at_v : R) : Prop :=
  let P := samples v c in
  P <> [] /\ (average * INR (length P) = fold_right Rplus 0 (map (fun p => Rabs (snd p - f (fst p))) P))%R /\
  (exists y, In (at_v, y) P /\ top = y - f at_v)%R /\ forall p, In p P -> (snd p - f (fst p) <= top)%R.
(** The nodes x, y are samples of the curve. *)
Definition nodes_of (v c x y : list R) : Prop :=
  length y = length x /\ forall k, (k < length x)%nat -> In (nth k x 0%R, nth k y 0%R) (List.combine v c).

(** The text s says what the message m means. *)
Open Scope string_scope.
Definition rsays (m : rmsg) (s : string) : Prop :=
  match m with
  | Generating => s = line "Generating response function:"
  | Smear x => exists a, s = line (" - Voltage smear: " ++ a) /\ near 4 a x
  | Interpolating => s = line " - Interpolating:"
  | CurveDC => s = line (tabs 1 ++ "- DC I-V curve:")
  | NodesDC n => exists a, s = line (tabs 2 ++ "- npts for DC I-V: " ++ a) /\ natural a n
  | MeanError e => exists a, s = line (tabs 2 ++ "- avg. error: " ++ a) /\ sci_near "E" 4 a e
  | MaxError e v => exists a b, s = line (tabs 2 ++ "- max. error: " ++ a ++ " at v=" ++ b) /\ near 4 a e /\ near 2 b v
  | CurveKK => s = line (tabs 1 ++ "- KK curve:")
  | NodesKK n => exists a, s = line (tabs 2 ++ "- npts for KK I-V: " ++ a) /\ natural a n
  | Gap => s = line ""
  end.
