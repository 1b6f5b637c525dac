(** What the I-V curve models are supposed to be. *)
From Coq Require Import List ZArith Reals String.
From Verif Require Import Base Float Model_Circuit Model_IVModels Spec_Case.
Import ListNotations.
Open Scope R_scope.

(** The ideal curve: no current below the gap, half the voltage at the gap, the voltage
    above it. *)
Definition ideal (v y : R) : Prop :=
  (Rabs v < 1 -> y = 0) /\ (Rabs v = 1 -> y = v / 2) /\ (1 < Rabs v -> y = v).

(** The number a scalar call returned, if any. *)
Definition value (o : ivout) : option fl :=
  match o with OFloat x => Some x | OInt z => Some (FV (IZR z)) | _ => None end.
(** The numbers an array call returned, if any. *)
Definition values (o : ivout) : option (list fl) :=
  match o with OFloats l => Some l | OInts l => Some (map (fun z => FV (IZR z)) l) | _ => None end.

(** The three documented names of the exponential model, in any case. *)
Inductive expmodel := Fixed | Original.
Definition names_model (s : string) (m : expmodel) : Prop :=
  match m with
  | Fixed => same_letters s "fixed" \/ same_letters s "corrected"
  | Original => same_letters s "original"
  end.

(** The value of a run that does not raise. *)
Definition result (r : res R) : R := match r with Ok y => y | Err _ => 0 end.
