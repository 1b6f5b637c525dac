(** Properties C54-C57: the I-V curve models (vocabulary in Spec_IVModels.v, numbers with
    infinities and NaN in Float.v). *)
From Coq Require Import List ZArith Bool Reals Lra String.
From Coquelicot Require Import Rbar Lim_seq Continuity.
From Verif Require Import Base Float Model_IVModels Spec_IVModels Proof_IVModels.
Import ListNotations.
Open Scope R_scope.

(** ** C54 *)
Theorem C54_perfect_odd :
  (forall l l', perfect (AFloat l) = OFloats l' -> perfect (AFloat (map fopp l)) = OFloats (map fopp l')) /\
  (forall l l', perfect (AInt l) = OInts l' -> perfect (AInt (map Z.opp l)) = OInts (map Z.opp l')) /\
  (forall v y, value (perfect (SFloat (FV v))) = Some (FV y) -> value (perfect (SFloat (FV (- v)))) = Some (FV (- y))) /\
  (forall z y, value (perfect (SInt z)) = Some (FV y) -> value (perfect (SInt (- z))) = Some (FV (- y))) /\
  perfect (AFloat [FV 0]) = OFloats [FV 0].
Proof. exact perfect_odd. Qed.
Print Assumptions C54_perfect_odd.

Theorem C54_polynomial_odd : forall v order, polynomial (- v) order = - polynomial v order /\ polynomial 0 order = 0.
Proof. exact poly_odd_zero. Qed.
Print Assumptions C54_polynomial_odd.

Theorem C54_exponential_odd : forall v vgap rn rsg agap model y, exponential v vgap rn rsg agap model = Ok y ->
  exponential (- v) vgap rn rsg agap model = Ok (- y) /\ (v = 0 -> y = 0).
Proof. exact exp_odd_zero. Qed.
Print Assumptions C54_exponential_odd.

Theorem C54_expanded_odd : forall v vgap rn rsg agap a0 ileak vnot inot anot ioff y,
  expanded v vgap rn rsg agap a0 ileak vnot inot anot ioff = Ok y ->
  expanded (- v) vgap rn rsg agap a0 ileak vnot inot anot ioff = Ok (- y) /\ (v = 0 -> y = 0).
Proof. exact expanded_odd_zero. Qed.
Print Assumptions C54_expanded_odd.

(** Which calls succeed: a non-zero normal resistance and a known name. *)
Theorem C54_model_names : forall v vgap rn rsg agap model, rn <> 0 ->
  ((exists y, exponential v vgap rn rsg agap model = Ok y) <-> names_model model Fixed \/ names_model model Original) /\
  (exponential v vgap rn rsg agap model = Err ValueError <-> ~ names_model model Fixed /\ ~ names_model model Original).
Proof. exact exp_names. Qed.
Print Assumptions C54_model_names.

Example C54_case : names_model "Fixed" Fixed /\ names_model "CORRECTED" Fixed /\ names_model "original" Original /\
  (exists y, exponential (1 / 2) (28 / 10000) 14 300 40000 "fixed" = Ok y) /\
  (exists y, expanded (1 / 2) (28 / 10000) 14 500 40000 10000 (5 / 1000000) (285 / 100000) (1 / 100000) 20000 (1 / 100000) = Ok y) /\
  exponential (1 / 2) (28 / 10000) 14 300 40000 "rashid" = Err ValueError.
Proof. exact exp_cases. Qed.

(** ** C55 *)

(** A float (Python float, np.float64), a Python int, and each element of a float array. *)
Theorem C55_ideal_values_partial :
  (forall v, exists y, value (perfect (SFloat (FV v))) = Some (FV y) /\ ideal v y) /\
  (forall z, exists y, value (perfect (SInt z)) = Some (FV y) /\ ideal (IZR z) y) /\
  (forall l, exists ys, perfect (AFloat (map FV l)) = OFloats (map FV ys) /\ Forall2 ideal l ys) /\
  (forall l, Forall (fun z => z <> 1 /\ z <> -1)%Z l ->
     exists ys, perfect (AInt l) = OInts ys /\ Forall2 (fun v y => ideal (IZR v) (IZR y)) l ys).
Proof. exact ideal_values. Qed.
Print Assumptions C55_ideal_values_partial.

(** The ideal curve has one value at each voltage. *)
Theorem C55_ideal_is_function : forall v, exists y, ideal v y /\ forall y', ideal v y' -> y' = y.
Proof. exact ideal_function. Qed.
Print Assumptions C55_ideal_is_function.

(** Infinite voltages; in an array NaN stays NaN. *)
Theorem C55_infinite : perfect (AFloat [FPInf; FNInf; FNaN]) = OFloats [FPInf; FNInf; FNaN] /\
  perfect (SFloat FPInf) = OFloat FPInf /\ perfect (SFloat FNInf) = OFloat FNInf.
Proof. exact perfect_infinite. Qed.
Print Assumptions C55_infinite.

(** Missing: an integer array loses the half at the gap, and NumPy scalars other than
    np.float64, as well as a scalar NaN, give None. *)
Theorem C55_refuted : perfect (AInt [1]%Z) = OInts [0]%Z /\ ~ ideal 1 0 /\
  (forall x, perfect (SNumpy x) = ONone) /\ perfect (SFloat FNaN) = ONone.
Proof. exact perfect_refuted. Qed.
Print Assumptions C55_refuted.

Theorem C55_kk :
  (forall v m, exists y, perfect_kk (KFloat v) m = KOVal y /\ perfect_kk (KFloat (- v)) m = KOVal y) /\
  (forall v m, Rabs v = 1 -> perfect_kk (KFloat v) m = KOVal m) /\
  (forall v m, Rabs v <> 1 -> perfect_kk (KFloat v) m = KOVal (- (2 + v * ln (Rabs ((v - 1) / (v + 1)))) / PI)) /\
  (forall l m ys, perfect_kk (KFloats l) m = KOArr ys -> Forall2 (fun v y => perfect_kk (KFloat v) m = KOVal y) l ys) /\
  (forall l m, perfect_kk (KInts l) m = perfect_kk (KFloats (map IZR l)) m) /\
  (forall z m, perfect_kk (KInt z) m = perfect_kk (KFloat (IZR z)) m).
Proof. exact kk_all. Qed.
Print Assumptions C55_kk.

(** ** C56 *)
Theorem C56_between : forall v order, 0 <= v -> 0 <= polynomial v order <= v.
Proof. exact poly_bounds. Qed.
Print Assumptions C56_between.

Theorem C56_increasing : forall u v order, u < v -> polynomial u order < polynomial v order.
Proof. exact poly_incr. Qed.
Print Assumptions C56_increasing.

Theorem C56_gap : forall order, polynomial 1 order = 1 / 2.
Proof. exact poly_gap. Qed.
Print Assumptions C56_gap.

(** With numbers from 2^1024 on overflowing: finite on the simulation range |V| <= 35 for
    orders up to 99. *)
Theorem C56_finite_partial : forall v order, Rabs v <= 35 -> (order <= 99)%nat ->
  polynomial_ovf v order = FV (polynomial v order).
Proof. exact poly_finite. Qed.
Print Assumptions C56_finite_partial.

(** Missing: every higher order gives inf / inf at the end of the range. *)
Theorem C56_refuted : forall order, (100 <= order)%nat -> polynomial_ovf 35 order = FNaN.
Proof. exact poly_overflow. Qed.
Print Assumptions C56_refuted.

(** ** C57 *)
Theorem C57_below_gap : forall v vgap rn rsg agap model y, 0 < vgap -> 0 < rn -> 0 < rsg -> 0 < agap -> Rabs v <= 1 ->
  exponential v vgap rn rsg agap model = Ok y ->
  (names_model model Fixed ->
     Rabs (y - v * (rn / rsg)) <= Rabs (v * (1 - rn / rsg)) * (2 * exp (- (agap * vgap * (1 - Rabs v))))) /\
  (names_model model Original ->
     Rabs (y - 2 * (v * (rn / rsg))) <= Rabs (v * (1 - rn / rsg)) * (2 * exp (- (agap * vgap * (1 - Rabs v))))).
Proof. exact exp_below. Qed.
Print Assumptions C57_below_gap.

Theorem C57_above_gap : forall v vgap rn rsg agap model y, 0 < vgap -> 0 < rn -> 0 < rsg -> 0 < agap -> 1 <= Rabs v ->
  exponential v vgap rn rsg agap model = Ok y ->
  (names_model model Fixed ->
     Rabs (y - v) <= Rabs (v * (1 - rn / rsg)) * exp (- (agap * vgap * (Rabs v - 1)))) /\
  (names_model model Original ->
     Rabs (y - (v + v * (rn / rsg))) <= Rabs (v * (1 - rn / rsg)) * exp (- (agap * vgap * (Rabs v - 1)))).
Proof. exact exp_above. Qed.
Print Assumptions C57_above_gap.

Theorem C57_limits : forall v vgap rn rsg model, 0 < vgap -> 0 < rn -> 0 < rsg ->
  (Rabs v < 1 -> names_model model Fixed -> is_lim (fun a => result (exponential v vgap rn rsg a model)) p_infty (v * (rn / rsg))) /\
  (Rabs v < 1 -> names_model model Original -> is_lim (fun a => result (exponential v vgap rn rsg a model)) p_infty (2 * (v * (rn / rsg)))) /\
  (1 < Rabs v -> names_model model Fixed -> is_lim (fun a => result (exponential v vgap rn rsg a model)) p_infty v).
Proof. exact exp_lim. Qed.
Print Assumptions C57_limits.
