(** What qtcurrent prints. *)
From Coq Require Import List ZArith Bool Arith Lia Reals String.
From Coquelicot Require Import Complex.
From Verif Require Import Base Round Bessel Spec_QtCurrent Spec_QtApi Model_Misc Model_Print Model_Said Model_QtCurrent Proof_QtCurrent Proof_Circuit Model_QtPrint Spec_Misc Spec_Print Spec_HBText Spec_QtPrint Proof_Said Proof_Misc Proof_HBText.
Import ListNotations.
Local Notation length := List.length.
Open Scope list_scope.

Lemma interpolate_same cct resp num_b : snd (interpolate_respfn_p cct resp num_b) = interpolate_respfn cct resp num_b.
Proof.
  unfold interpolate_respfn_p. rewrite snd_after. unfold interpolate_respfn at 5. cbn [quietly snd]. destruct (unpack_num_b num_b (q_num_f cct)) as [nb|e] eqn:U; cbn [bind]; [|reflexivity].
  destruct (q_num_f cct) as [|[|[|[|[|F]]]]] eqn:N; try reflexivity; cbn [quietly snd]; unfold interpolate_respfn; rewrite N, U; reflexivity.
Qed.
Lemma interpolate_said cct resp num_b : fst (interpolate_respfn_p cct resp num_b) = [] \/
  (fst (interpolate_respfn_p cct resp num_b) = [BadTones] /\ snd (interpolate_respfn_p cct resp num_b) = Err ValueError /\ (q_num_f cct = 0 \/ 5 <= q_num_f cct)%nat).
Proof.
  unfold interpolate_respfn_p. rewrite after_quiet. destruct (unpack_num_b num_b (q_num_f cct)); [|now left]. destruct (q_num_f cct) as [|[|[|[|[|F]]]]]; try (left; reflexivity); right; (split; [reflexivity|]; split; [reflexivity|lia]).
Qed.
Lemma qt_same J t vj cct resp fl num_b verbose rm : snd (qtcurrent_p J t vj cct resp fl num_b verbose rm) = qtcurrent J vj cct resp fl num_b rm.
Proof.
  unfold qtcurrent_p, qtcurrent. cbv zeta. rewrite snd_after. cbn [quietly snd]. destruct (guard (forallb (fun f => Rltb 0 (q_freq cct f)) (seq 1 (q_num_f cct))) AssertionError) as [u|e]; cbn [bind]; [|reflexivity].
  rewrite snd_after. cbn [quietly snd]. destruct (unpack_num_b num_b (q_num_f cct)) as [nb|e]; cbn [bind]; [|reflexivity]. rewrite after_say. cbn [snd].
  rewrite snd_after. cbn [quietly snd]. destruct (calculate_phase_factor_coeff J vj (q_freq cct) (q_num_f cct) (q_num_p cct) num_b) as [ccc|e]; cbn [bind]; [|reflexivity].
  assert (T : forall rm', snd (let! rows := quietly (mapM (fun w => current_n_tones (q_num_f cct) w ccc (q_freq cct) rm' (q_num_p cct) nb) (map round4 match fl with FList l => l | FScalar x => [x] end)) in
    let! _ := say_if verbose [Finished; Elapsed t] in quietly match fl with FList _ => Ok (QRows (map (Model_QtCurrent.tab (q_npts cct)) rows)) | FScalar _ => match map (Model_QtCurrent.tab (q_npts cct)) rows, map round4 match fl with FList l => l | FScalar x => [x] end with [row], [w] => if Reqb w 0 then Ok (QReal (map Re row)) else Ok (QRow row) | _, _ => Err IndexError end end) =
    bind (mapM (fun w => current_n_tones (q_num_f cct) w ccc (q_freq cct) rm' (q_num_p cct) nb) (map round4 match fl with FList l => l | FScalar x => [x] end)) (fun rows =>
    match fl with FList _ => Ok (QRows (map (Model_QtCurrent.tab (q_npts cct)) rows)) | FScalar _ => match map (Model_QtCurrent.tab (q_npts cct)) rows, map round4 match fl with FList l => l | FScalar x => [x] end with [row], [w] => if Reqb w 0 then Ok (QReal (map Re row)) else Ok (QRow row) | _, _ => Err IndexError end end)).
  { intros rm'. rewrite snd_after. unfold quietly at 1. cbn [snd]. destruct (mapM _ _) as [rows|e]; cbn [bind]; [|reflexivity]. rewrite after_say. reflexivity. }
  rewrite snd_after. destruct rm as [rm0|].
  - destruct (guard (length (rm_shape rm0) + 1 =? q_num_f cct + 1)%nat AssertionError); [|reflexivity]. destruct (guard (rm_npts rm0 =? q_npts cct)%nat AssertionError); [|reflexivity]. apply T.
  - rewrite interpolate_same. destruct (interpolate_respfn cct resp num_b); [|reflexivity]. apply T.
Qed.
(** Everything that can be printed. *)
Lemma qt_said J t vj cct resp fl num_b verbose rm : let call := qtcurrent_p J t vj cct resp fl num_b verbose rm in
  (exists y, snd call = Ok y /\ fst call = opening verbose cct ++ if verbose then [Finished; Elapsed t] else []) \/
  (exists e, snd call = Err e /\ (fst call = [] \/ fst call = opening verbose cct \/ (fst call = opening verbose cct ++ [BadTones] /\ e = ValueError /\ rm = None /\ (q_num_f cct = 0 \/ 5 <= q_num_f cct)%nat))).
Proof.
  cbv zeta. unfold qtcurrent_p, opening. cbv zeta. rewrite after_quiet. destruct (guard _ _) as [u|e]; [|right; eexists; split; [reflexivity|now left]].
  rewrite after_quiet. destruct (unpack_num_b num_b (q_num_f cct)) as [nb|e]; [|right; eexists; split; [reflexivity|now left]].
  rewrite after_say. cbn [fst snd]. set (op := if verbose then [Calculating; Tones (q_num_f cct); Harmonics (q_num_p cct)] else []). rewrite after_quiet.
  destruct (calculate_phase_factor_coeff J vj (q_freq cct) (q_num_f cct) (q_num_p cct) num_b) as [ccc|e]; [|right; eexists; split; [reflexivity|right; left; cbn [fst]; now rewrite app_nil_r]].
  set (I := match rm with Some rm0 => _ | None => _ end). assert (HI : (fst I = [] \/ (fst I = [BadTones] /\ snd I = Err ValueError /\ rm = None /\ (q_num_f cct = 0 \/ 5 <= q_num_f cct)%nat))).
  { unfold I. destruct rm as [rm0|].
    - left. apply fst_quiet; [reflexivity|]. intros _. apply fst_quiet; reflexivity.
    - destruct (interpolate_said cct resp num_b) as [H|(H1 & H2 & H3)]; [now left|right; auto]. }
  clearbody I. destruct I as [o [rm'|e]]; cbn [fst snd after] in *.
  - destruct HI as [->|(_ & H & _)]; [|discriminate].
    destruct fl as [x|l]; cbn [map mapM].
    + destruct (mapM _ _) as [rows|e].
      * left. eexists. cbn [fst snd after quietly say_if app]. rewrite !app_nil_r. split; reflexivity.
      * right. eexists. split; [reflexivity|]. right. left. cbn [fst snd after quietly say_if app]. now rewrite app_nil_r.
    + destruct (current_n_tones _ _ _ _ _ _ _) as [row|e]; cbn [bind].
      * left. cbn [fst snd after quietly say_if app map]. rewrite !app_nil_r. destruct (Reqb _ _); eexists; split; reflexivity.
      * right. eexists. split; [reflexivity|]. right. left. cbn [fst snd after quietly say_if app]. now rewrite app_nil_r.
  - right. eexists. split; [reflexivity|]. destruct HI as [->|(-> & H & R & N)]; [right; left; now rewrite app_nil_r|]. right. right. split; [reflexivity|]. injection H as ->. auto.
Qed.

Lemma qt_early J t vj cct resp fl num_b verbose rm : (exists f, (1 <= f <= q_num_f cct)%nat /\ (q_freq cct f <= 0)%R) \/ (length (nbtuple num_b (q_num_f cct)) < q_num_f cct)%nat ->
  qtcurrent_p J t vj cct resp fl num_b verbose rm = ([], Err AssertionError).
Proof.
  intros H. unfold qtcurrent_p. cbv zeta. rewrite after_quiet. destruct (forallb _ _) eqn:F; cbn [guard]; [|reflexivity]. destruct H as [(f & Hf & L)|H].
  - exfalso. rewrite forallb_forall in F. assert (K := F f ltac:(apply in_seq; lia)). destruct (Rltb_spec 0 (q_freq cct f)); [|discriminate]. apply (Rlt_not_le _ _ r L).
  - rewrite after_quiet. unfold unpack_num_b. destruct num_b as [n|l]; cbn [nbtuple] in H; [rewrite repeat_length in H; lia|]. destruct (Nat.leb_spec (q_num_f cct) (length l)); [lia|]. reflexivity.
Qed.
Lemma qt_many J t vj cct resp fl num_b verbose : (forall f, (1 <= f <= q_num_f cct)%nat -> (0 < q_freq cct f)%R) -> (q_num_f cct <= length (nbtuple num_b (q_num_f cct)))%nat -> (5 <= q_num_f cct)%nat -> (1 <= q_num_p cct)%nat ->
  qtcurrent_p J t vj cct resp fl num_b verbose None = (opening verbose cct ++ [BadTones], Err ValueError).
Proof.
  intros F L N P. unfold qtcurrent_p. cbv zeta. rewrite after_quiet. replace (forallb (fun f => Rltb 0 (q_freq cct f)) (seq 1 (q_num_f cct))) with true.
  2: { symmetry. apply forallb_forall. intros f Hf. apply in_seq in Hf. destruct (Rltb_spec 0 (q_freq cct f)); [reflexivity|]. exfalso. apply n. apply F. lia. }
  cbn [guard]. rewrite after_quiet. assert (U : exists nb, unpack_num_b num_b (q_num_f cct) = Ok nb). { unfold unpack_num_b. destruct num_b as [n|l]; [eauto|]. cbn [nbtuple] in L. apply Nat.leb_le in L. rewrite L. cbn. eauto. }
  destruct U as [nb U]. rewrite U, after_say. destruct (calculate_phase_factor_coeff_spec J vj (q_freq cct) (q_num_f cct) (q_num_p cct) num_b ltac:(lia) P L) as (ccc & E & _). rewrite after_quiet, E.
  unfold interpolate_respfn_p. rewrite after_quiet, U. destruct (q_num_f cct) as [|[|[|[|[|m]]]]] eqn:Q; try lia. cbn [after say_if quietly fst snd app]. unfold opening. rewrite Q. reflexivity.
Qed.
Lemma qtext_says m : qsays m (qtext m).
Proof.
  destruct m; cbn [qsays qtext]; try reflexivity.
  - eexists. split; [reflexivity|apply digits_natural].
  - eexists. split; [reflexivity|apply digits_natural].
  - eexists. split; [|apply fixed_near]. unfold print, line. rewrite !s_app_assoc. reflexivity.
Qed.
