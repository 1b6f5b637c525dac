(** The angle of the model is the phase. *)
From Coq Require Import Reals Lra.
From Coquelicot Require Import Complex.
From Verif Require Import Base Sums Bessel Model_QtCurrent Spec_QtCurrent Spec_QtApi Spec_Angle Proof_QtApi.
Open Scope R_scope.

Lemma sin_zero x : - PI < x < PI -> sin x = 0 -> x = 0.
Proof.
  intros H E. destruct (Rtotal_order x 0) as [L|[L|L]]; [|exact L|].
  - pose proof (sin_gt_0 (- x) ltac:(lra) ltac:(lra)) as G. rewrite sin_neg in G. lra.
  - pose proof (sin_gt_0 x ltac:(lra) ltac:(lra)). lra.
Qed.

Lemma same_phase a b : - PI < a <= PI -> - PI < b <= PI -> cos a = cos b -> sin a = sin b -> a = b.
Proof.
  intros A B C S. assert (D : cos (2 * ((a - b) / 2)) = 1).
  { replace (2 * ((a - b) / 2)) with (a - b) by field. rewrite cos_minus, C, S. pose proof (sin2_cos2 b) as Q. unfold Rsqr in Q. lra. }
  rewrite cos_2a_sin in D. assert (Z : sin ((a - b) / 2) = 0) by nra. apply sin_zero in Z; lra.
Qed.

Lemma angle_phase z phi : phase_of z phi <-> angle z = phi.
Proof.
  assert (G : phase_of z (angle z)).
  { pose proof (angle_polar z) as P. split; [|split; [|split; [apply angle_range|]]].
    - apply (f_equal Re) in P. rewrite P at 1. unfold cis, Cmult, RtoC, Re. cbn [fst snd]. ring.
    - apply (f_equal Im) in P. rewrite P at 1. unfold cis, Cmult, RtoC, Im. cbn [fst snd]. ring.
    - intros E. unfold angle, Reqb. rewrite E, Cmod_0. destruct (Req_EM_T 0 0); [reflexivity|contradiction]. }
  split; [|intros <-; exact G]. intros (R1 & I1 & B1 & Z1). destruct G as (R2 & I2 & B2 & Z2).
  destruct (Ceq_dec z (RtoC 0)) as [E|E]; [now rewrite Z1, Z2|].
  assert (M : Cmod z <> 0) by (intros M; apply E; now apply Cmod_eq_0).
  apply same_phase; [exact B2|exact B1|apply Rmult_eq_reg_l with (Cmod z); [congruence|exact M]|apply Rmult_eq_reg_l with (Cmod z); [congruence|exact M]].
Qed.
