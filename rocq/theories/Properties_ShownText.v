(** Properties C47, C136 and C142: data of different lengths, and the text of the numbers that
    the figures and the report show ([near] is in Spec_HBText.v). *)
From Coq Require Import List ZArith Bool Reals Lra Lia String.
From Verif Require Import Base Float NumPy Model_CleanData Model_RespFn Proof_RespFn2 Model_Misc Model_Plots Model_Report Spec_Misc Spec_Print Spec_HBText Spec_ExpPrint Proof_Misc Proof_Print Proof_HBText Proof_ExpPrint2.
Import ListNotations.
Open Scope R_scope.
Local Notation length := List.length.

(** ** C47 *)
(** A current curve with more or fewer points than there are voltages is refused, whatever the
    values. *)
Theorem C47_lengths : forall spline dspline v c vmax p, length c <> length v -> respfn_from_iv spline dspline v c vmax p = Err IndexError.
Proof. intros spline dspline v c vmax p H. unfold respfn_from_iv. rewrite import_mismatch by exact H. reflexivity. Qed.
Print Assumptions C47_lengths.

(** ** C136 *)
(** The number in a figure: d decimals and the closest such number; inf, -inf and nan are
    written so. *)
Theorem C136_number_text : forall d x, near d (show_fl d (FV x)) x /\ show_fl d FPInf = "inf"%string /\ show_fl d FNInf = "-inf"%string /\ show_fl d FNaN = "nan"%string.
Proof. intros d x. split; [exact (fixed_close false 0 d x)|]. auto. Qed.
Print Assumptions C136_number_text.

(** ** C142 *)
(** The number in the report is padded with blanks to the width w. *)
Theorem C142_number_text : forall w d x, value_near false d (show_width w d x) x /\ (w <= String.length (show_width w d x))%nat.
Proof.
  assert (BA : forall a b, Spec_Misc.blank a -> Spec_Misc.blank b -> Spec_Misc.blank (a ++ b)%string).
  { induction a as [|c a IH]; intros b A B; [exact B|]. destruct A as [A1 A2]. split; [exact A1|exact (IH b A2 B)]. }
  intros w d x. assert (L : forall s, (w <= String.length (pad_left w s))%nat).
  { intros s. unfold pad_left. rewrite length_app, times_length. lia. }
  split; [|apply L]. destruct x as [x| | |]; cbn [value_near]; unfold show_width, show_fl.
  - destruct (fixed_close false 0 d x) as (y & bl & a & b & D & N & E & B & K). unfold pad_left. set (m := (w - String.length (fixed false 0 d x))%nat). exists y, (times_nat " " m ++ bl)%string, a, b.
    split; [destruct D as (bl' & sg & a' & b' & n & k & E' & B' & R); exists (times_nat " " m ++ bl')%string, sg, a', b', n, k; split; [rewrite E', !s_app_assoc; reflexivity|]; split; [apply BA; [apply blank_times|exact B']|exact R]|]. split; [exact N|]. split; [rewrite E, !s_app_assoc; reflexivity|]. split; [apply BA; [apply blank_times|exact B]|exact K].
  - unfold pad_left. eexists. split; [apply blank_times|reflexivity].
  - unfold pad_left. eexists. split; [apply blank_times|reflexivity].
  - unfold pad_left. eexists. split; [apply blank_times|reflexivity].
Qed.
Print Assumptions C142_number_text.
(** A temperature of 45.26 K to one decimal, and an infinite one. *)
Example C142_number_case : near 1 (show_fl 1 (FV (4526 / 100))) (4526 / 100) /\ show_width 7 1 FNInf = "   -inf"%string.
Proof. split; [apply C136_number_text|reflexivity]. Qed.
