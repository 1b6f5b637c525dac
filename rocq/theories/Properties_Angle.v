(** What the word angle means in the theorems of properties C01, C02, C117 and C149. *)
From Coq Require Import Reals Lra.
From Coquelicot Require Import Complex.
From Verif Require Import Base Model_QtCurrent Spec_Angle Proof_Angle.
Open Scope R_scope.

(** ** C02 *)
Theorem C02_angle : forall z phi, phase_of z phi <-> angle z = phi.
Proof. exact angle_phase. Qed.
Print Assumptions C02_angle.

Example C02_angle_case : angle (0, - (3)) = - (PI / 2).
Proof.
  apply C02_angle. pose proof PI_RGT_0. assert (M : Cmod (0, - (3)) = 3).
  { unfold Cmod. cbn [fst snd]. replace (0 ^ 2 + (- (3)) ^ 2) with (3 * 3) by ring. apply sqrt_square. lra. }
  split; [|split; [|split; [lra|]]].
  - rewrite M, cos_neg, cos_PI2. cbn. ring.
  - rewrite M, sin_neg, sin_PI2. cbn. ring.
  - intros E. apply (f_equal Im) in E. cbn in E. lra.
Qed.
