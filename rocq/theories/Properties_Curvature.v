(** C44: the nodes follow the curvature of the table. *)
From Coq Require Import List ZArith Bool Lia Reals Lra.
From Verif Require Import Base Float NumPy Model_MathFn Spec_RespFn Spec_Curvature Model_IVModels Model_RespFn Proof_Curvature.
Import ListNotations.
Open Scope R_scope.
Local Notation length := List.length.

(** C44 — w is the smoothed size of the second derivative.  The points strictly between two neighbouring nodes carry at
    most one part in max_npts of its sum over the whole table: the nodes are dense where the curve bends. *)
Theorem C44_curvature : forall v c mx s idx, increasing v -> length c = length v -> (201 <= length v)%nat -> (0 <= mx)%Z -> sample_curve v c mx s = Ok idx ->
  exists d1 d2 w, slope v c = Ok (map FV d1) /\ slope v d1 = Ok (map FV d2) /\ gauss_conv (map Rabs d2) (s / (nth 1 v 0 - nth 0 v 0)) 3 = Ok w /\
    (0 < first_sum w (length v) -> forall a b, neighbours idx a b -> (first_sum w (Z.to_nat b) - first_sum w (Z.to_nat a + 1)) * IZR mx <= first_sum w (length v)).
Proof. exact nodes_follow. Qed.
Print Assumptions C44_curvature.
(** The parabola bends everywhere. *)
Example C44_curvature_case : exists idx d1 d2 w, sample_curve (reflect VINIT) (map Rsqr (reflect VINIT)) 101 (1 / 4) = Ok idx /\ slope (reflect VINIT) (map Rsqr (reflect VINIT)) = Ok (map FV d1) /\ slope (reflect VINIT) d1 = Ok (map FV d2) /\
  gauss_conv (map Rabs d2) ((1 / 4) / (nth 1 (reflect VINIT) 0 - nth 0 (reflect VINIT) 0)) 3 = Ok w /\ 0 < first_sum w (length (reflect VINIT)).
Proof. exact follow_case. Qed.
