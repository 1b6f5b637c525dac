(** How a reader understands the lines that harmonic_balance prints. *)
From Coq Require Import List ZArith Bool Reals String Ascii.
From Verif Require Import Base Model_HB Model_HBPrint Spec_Misc Spec_Print.
Open Scope string_scope.

(** A decimal fraction with d digits next to x. *)
Definition near (d : nat) (s : string) (x : R) : Prop :=
  exists y bl a b, denotes s y /\ (Rabs (y - x) <= / 2 / 10 ^ d)%R /\ s = bl ++ a ++ "." ++ b /\ blank bl /\ String.length b = d.
(** A whole number. *)
Definition natural (s : string) (n : nat) : Prop := read_digits 0 s = Some n /\ s <> "".
Definition whole (s : string) (n : Z) : Prop := exists d, (n = Z.of_nat d /\ natural s d) \/ (n = (- Z.of_nat d)%Z /\ exists t, s = "-" ++ t /\ natural t d).
(** An error: a number, inf or nan. *)
Definition error_text (d : nat) (s : string) (e : xr) : Prop :=
  match e with Fin x => near d s x | Inf => exists bl, blank bl /\ s = bl ++ "inf" | NaN => exists bl, blank bl /\ s = bl ++ "nan" end.
(** A time in seconds, minutes and hours. *)
Definition time_text (s : string) (t : R) : Prop :=
  exists a b c, s = a ++ " s / " ++ b ++ " min / " ++ c ++ " hrs" /\ near 2 a t /\ near 2 b (t / 60) /\ near 2 c (t / 3600).

(** The text s says what the message m means. *)
Definition says (m : msg) (s : string) : Prop :=
  match m with
  | Running => s = line "Running harmonic balance:"
  | DoneAtOnce => s = line "Done." ++ line ""
  | Tones f p => exists a b, s = line (" - " ++ a ++ " tone(s) and " ++ b ++ " harmonic(s)") /\ natural a f /\ natural b p
  | Calls n => exists a, s = line (" - " ++ a ++ " calls to the quasiparticle tunneling current (qtc) function per iteration") /\ natural a n
  | MaxIt n => exists a, s = line (" - max. iterations: " ++ a) /\ whole a n
  | EstimatedTime => s = line "Estimated time:"
  | CallTime t => exists a, s = line (" - time per qtc call:  " ++ a) /\ time_text a t
  | IterationTime t => exists a, s = line (" - time per iteration: " ++ a) /\ time_text a t
  | MaxTime t => exists a, s = line (" - max sim time:       " ++ a) /\ time_text a t
  | ErrorAfter n => exists a, s = line ("Error after " ++ a ++ " iteration(s):") /\ whole a n
  | SignalError f p med max percent => exists a b c d e,
      s = line (tabs 1 ++ "f:" ++ a ++ ", p:" ++ b ++ ",   med. rel. error: " ++ c ++ ",   max. rel. error: " ++ d ++ ",   " ++ e ++ " % complete") /\
      natural a f /\ natural b p /\ error_text 3 c med /\ error_text 3 d max /\ near 1 e percent
  | TargetMet => s = line "Done: Minimum error target was achieved."
  | TargetMissed => s = line "*** DID NOT ACHIEVE TARGET ERROR VALUE ***" ++ line ""
  | Progress _ _ => True
  | Correcting => s = line "Applying correction"
  | SimTime t => exists a, s = line (" - sim time:" ++ tabs 2 ++ a) /\ time_text a t
  | Iterations n => exists a, s = line (" - " ++ a ++ " iterations required") /\ whole a n
  | TimePerIteration t => exists a, s = line (" - time per iteration:" ++ tabs 1 ++ a) /\ time_text a t
  | Checking => s = line "Double-checking harmonic balance error:"
  | Checked f p max pass => exists a b c,
      s = line (tabs 1 ++ "f:" ++ a ++ "," ++ tabs 1 ++ "p:" ++ b ++ "," ++ tabs 1 ++ "max rel. error: " ++ c ++ "," ++ tabs 1 ++ "Pass? " ++ (if pass then "Yes" else "No")) /\
      natural a f /\ natural b p /\ match max with Fin x => sci_near "E" 2 c x | Inf => c = "INF" | NaN => c = "NAN" end
  | EmptyLine => s = line ""
  end.
