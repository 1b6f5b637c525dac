(** The lines that harmonic_balance prints say what the messages mean. *)
From Coq Require Import List ZArith Lia Bool Reals Lra String Ascii.
From Verif Require Import Base Round Model_QtCurrent Model_HB Model_Misc Model_Print Model_HBPrint Spec_Misc Spec_Print Proof_Misc Proof_Print Spec_HBText.
Open Scope string_scope.

Lemma s_app_assoc a b c : (a ++ b) ++ c = a ++ b ++ c.
Proof. induction a as [|x a IH]; [reflexivity|]. cbn. now rewrite IH. Qed.
Lemma s_app_nil a : a ++ "" = a.
Proof. induction a as [|x a IH]; [reflexivity|]. cbn. now rewrite IH. Qed.
Lemma blank_times n : blank (times_nat " " n).
Proof. induction n as [|n IH]; [exact I|]. cbn. now split. Qed.
Lemma digits_natural n : natural (digits n) n.
Proof. split; [apply digits_val|]. intros E. pose proof (digits_nonempty n) as H. rewrite E in H. cbn in H. lia. Qed.
Lemma show_z_whole n : whole (show_z n) n.
Proof.
  unfold show_z. exists (Z.to_nat (Z.abs n)). destruct (Z.ltb_spec n 0).
  - right. split; [lia|]. eexists. split; [reflexivity|apply digits_natural].
  - left. split; [lia|]. apply digits_natural.
Qed.
Lemma last_len d : forall n, String.length (last_digits d n) = d.
Proof. exact (fun n => last_length d n). Qed.
Lemma fixed_near w d x : near d (fixed false w d x) x.
Proof.
  unfold near. pose proof (fixed_denotes false w d x) as D. exists (round_dec d x).
  unfold fixed in *. set (n := Z.to_nat _) in *. unfold pad_left in *. set (sg := if Rltb x 0 then _ else _) in *.
  exists (times_nat " " (w - String.length (sg ++ digits (n / 10 ^ d) ++ "." ++ last_digits d n))), (sg ++ digits (n / 10 ^ d)), (last_digits d n).
  split; [exact D|]. split; [apply round_dec_error|]. split; [now rewrite !s_app_assoc|]. split; [apply blank_times|apply last_len].
Qed.
Lemma error_near w d e : error_text d (show_xr (fixed false w d) w false e) e.
Proof. destruct e; cbn; [apply fixed_near| |]; (eexists; split; [|reflexivity]; apply blank_times). Qed.
Lemma time_near t : time_text (show_time t) t.
Proof. unfold show_time. eexists _, _, _. split; [reflexivity|]. split; [apply fixed_near|]. split; apply fixed_near. Qed.

Lemma text_says show m : says m (Model_HBPrint.text show m).
Proof.
  destruct m; cbn [says Model_HBPrint.text]; try reflexivity; try exact I;
    try (eexists; split; [reflexivity|]; (apply digits_natural || apply show_z_whole || apply time_near)).
  - eexists _, _. split; [reflexivity|]. split; apply digits_natural.
  - eexists _, _, _, _, _. split; [reflexivity|]. split; [apply digits_natural|]. split; [apply digits_natural|]. split; [apply error_near|]. split; [apply error_near|apply fixed_near].
  - eexists _, _, _. split; [reflexivity|]. split; [apply digits_natural|]. split; [apply digits_natural|]. destruct max; cbn; [apply sci_ok|reflexivity|reflexivity].
Qed.
