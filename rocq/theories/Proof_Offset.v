(** Proofs about the search of the offset of a measured I-V curve. *)
From Coq Require Import List ZArith Bool Lia Reals Lra String.
From Verif Require Import Base Model_QtCurrent Proof_Circuit Proof_IVModels Float NumPy Proof_NumPy Model_CleanData Proof_CleanData Model_MathFn Spec_RespFn Model_RespFn Proof_RespFn2 Spec_IVData Model_IVData Proof_IVData Proof_IVCurve Spec_Offset.
Import ListNotations.
Open Scope R_scope.
Local Notation length := List.length.
Local Notation rising := Spec_RespFn.increasing.

(** ** Curves turned around the origin *)
Lemma turned_nth l k : (k < length l)%nat -> nth k (map Ropp (rev l)) 0 = - nth (length l - 1 - k) l 0.
Proof. intros K. rewrite (nth_map_in Ropp (rev l) k 0 0) by (now rewrite rev_length). rewrite rev_nth by assumption. do 2 f_equal. lia. Qed.
Lemma turned_length l : length (map Ropp (rev l)) = length l.
Proof. now rewrite map_length, rev_length. Qed.
Lemma turned_rising l : rising l -> rising (map Ropp (rev l)).
Proof. intros H i j IJ J. rewrite turned_length in J. rewrite !turned_nth by lia. specialize (H (length l - 1 - j)%nat (length l - 1 - i)%nat ltac:(lia) ltac:(lia)). lra. Qed.
Lemma turned_joined x y t c : rising x -> length y = length x -> (1 <= length x)%nat ->
  joined (map Ropp (rev x)) (map Ropp (rev y)) (nth 0 (map Ropp (rev y)) 0) (nth (length x - 1) (map Ropp (rev y)) 0) t c ->
  joined x y (nth 0 y 0) (nth (length x - 1) y 0) (- t) (- c).
Proof.
  intros I L N [H1 [H2 [H3 H4]]]. rewrite turned_length in *. rewrite !turned_nth in H1 by lia. rewrite !turned_nth in H2 by lia. rewrite L in *.
  replace (length x - 1 - 0)%nat with (length x - 1)%nat in * by lia. replace (length x - 1 - (length x - 1))%nat with 0%nat in * by lia. split; [|split; [|split]].
  - intros B. rewrite H2 by lra. ring.
  - intros B. rewrite H1 by lra. ring.
  - intros j J E. rewrite (H3 (length x - 1 - j)%nat); [|lia|]; rewrite turned_nth by lia; rewrite ?L.
    + replace (length x - 1 - (length x - 1 - j))%nat with j by lia. ring.
    + replace (length x - 1 - (length x - 1 - j))%nat with j by lia. lra.
  - intros j J B. specialize (H4 (length x - 2 - j)%nat). rewrite !turned_nth in H4 by lia. rewrite L in H4.
    replace (length x - 1 - (length x - 2 - j))%nat with (S j) in H4 by lia. replace (length x - 1 - S (length x - 2 - j))%nat with j in H4 by lia.
    rewrite H4 by (try lia; lra). specialize (I j (S j) ltac:(lia) ltac:(lia)). field. repeat split; lra.
Qed.
Lemma turned_interp x y t : rising x -> length y = length x -> (1 <= length x)%nat ->
  joined x y (nth 0 y 0) (nth (length x - 1) y 0) (- t) (- np_interp1 (map Ropp (rev x)) (map Ropp (rev y)) t).
Proof.
  intros I L N. apply turned_joined; try assumption.
  pose proof (interp_joined (map Ropp (rev x)) (map Ropp (rev y)) t (turned_rising x I) ltac:(rewrite !turned_length; exact L) ltac:(rewrite turned_length; exact N)) as J. rewrite turned_length in J. exact J.
Qed.
(** The joined curve has one value. *)
Lemma crossing x t : rising x -> (1 <= length x)%nat -> nth 0 x 0 <= t <= nth (length x - 1) x 0 ->
  (exists j, (j < length x)%nat /\ t = nth j x 0) \/ (exists j, (S j < length x)%nat /\ nth j x 0 <= t <= nth (S j) x 0).
Proof.
  intros I N [A B]. assert (H : forall n, (n < length x)%nat -> t <= nth n x 0 -> (exists j, (j < length x)%nat /\ t = nth j x 0) \/ (exists j, (S j < length x)%nat /\ nth j x 0 <= t <= nth (S j) x 0)).
  { induction n as [|n IH]; intros K T; [left; exists 0%nat; split; [lia|lra]|]. destruct (Rle_dec t (nth n x 0)) as [T'|T']; [apply IH; [lia|assumption]|]. right. exists n. split; [lia|]. lra. }
  apply (H (length x - 1)%nat); [lia|assumption].
Qed.
Lemma joined_one x y l r t c c' : rising x -> (1 <= length x)%nat -> joined x y l r t c -> joined x y l r t c' -> c = c'.
Proof.
  intros I N [H1 [H2 [H3 H4]]] [G1 [G2 [G3 G4]]]. destruct (Rlt_dec t (nth 0 x 0)) as [A|A]; [now rewrite H1, G1|]. destruct (Rlt_dec (nth (length x - 1) x 0) t) as [B|B]; [now rewrite H2, G2|].
  destruct (crossing x t I N ltac:(lra)) as [[j [J T]]|[j [J T]]]; [now rewrite (H3 j), (G3 j)|now rewrite (H4 j), (G4 j)].
Qed.

(** ** The function that is minimised *)
Lemma fold_sum (f : nat -> R) n : fold_right Rplus 0 (map f (seq 0 (S n))) = sum_f_R0 f n.
Proof.
  assert (A : forall l c, fold_right Rplus c l = fold_right Rplus 0 l + c) by (induction l as [|a l IH]; intros c; cbn [fold_right]; [ring|rewrite IH; ring]).
  induction n as [|n IH]; [cbn; ring|]. rewrite seq_S, map_app, fold_right_app, A, IH. cbn [map fold_right sum_f_R0 Nat.add]. ring.
Qed.
Lemma model_sum v i range o : offset_model v i (fst range) (snd range) o =
  sum_f_R0 (fun j => let x := map (fun a => a - fst o) v in let y := map (fun a => a - snd o) i in let t := compared range j in
    Rabs (np_interp1 x y t - np_interp1 (map Ropp (rev x)) (map Ropp (rev y)) t)) 100.
Proof.
  unfold offset_model, rsum, linspace. rewrite map_map. change (seq 0 101) with (seq 0 (S 100)). rewrite fold_sum. apply sum_eq. intros j J. cbv zeta. unfold compared.
  assert (E : INR (101 - 1) = 100) by (change (101 - 1)%nat with (Z.to_nat 100); rewrite INR_IZR_INZ, Z2Nat.id by lia; reflexivity).
  replace (fst range / 2 + INR j * ((snd range / 2 - fst range / 2) / INR (101 - 1))) with (fst range / 2 + INR j * ((snd range - fst range) / 200)) by (rewrite E; field). reflexivity.
Qed.
Lemma model_asymmetry P range o : rising (map fst P) -> P <> [] -> asymmetry P range o (offset_model (map fst P) (map snd P) (fst range) (snd range) o).
Proof.
  intros I N. set (x := map (fun p => fst p - fst o) P). set (y := map (fun p => snd p - snd o) P).
  assert (LP : (1 <= length P)%nat) by (destruct P; [contradiction|cbn [List.length]; lia]).
  assert (EX : map (fun a => a - fst o) (map fst P) = x) by (unfold x; now rewrite map_map). assert (EY : map (fun a => a - snd o) (map snd P) = y) by (unfold y; now rewrite map_map).
  assert (LX : length x = length P) by (unfold x; apply map_length). assert (LY : length y = length P) by (unfold y; apply map_length).
  assert (IX : rising x). { intros a b AB B. rewrite LX in B. specialize (I a b AB ltac:(rewrite map_length; exact B)). rewrite !(nth_map_in fst P _ 0 (0, 0)) in I by lia. unfold x. rewrite !(nth_map_in _ P _ 0 (0, 0)) by lia. lra. }
  exists (fun j => np_interp1 x y (compared range j)), (fun j => - np_interp1 (map Ropp (rev x)) (map Ropp (rev y)) (compared range j)). split.
  - intros j J. unfold moved_curve. fold x y. rewrite LY, <- LX. split; [apply interp_joined; [assumption|lia|lia]|apply turned_interp; [assumption|lia|lia]].
  - rewrite model_sum. cbv zeta. rewrite EX, EY. apply sum_eq. reflexivity.
Qed.

(** ** Which samples and which start *)
Lemma between_selects range (v i : list R) : length v = length i -> let mask := map (fun a => Rleb (fst range) a && Rleb a (snd range)) v in
  select mask v = Ok (map fst (samples_between range v i)) /\ select mask i = Ok (map snd (samples_between range v i)).
Proof.
  intros L mask. assert (E1 : v = map fst (List.combine v i)) by (revert i L mask; induction v as [|a v IH]; intros [|b i] L mask; try discriminate; [reflexivity|]; cbn [List.combine map fst]; f_equal; apply IH; now injection L).
  assert (E2 : i = map snd (List.combine v i)) by (clear E1; revert i L mask; induction v as [|a v IH]; intros [|b i] L mask; try discriminate; [reflexivity|]; cbn [List.combine map snd]; f_equal; apply IH; now injection L).
  assert (EM : mask = map (fun p => Rleb (fst range) (fst p) && Rleb (fst p) (snd range)) (List.combine v i)) by (unfold mask; rewrite E1 at 1; now rewrite map_map).
  assert (EF : samples_between range v i = filter (fun p => Rleb (fst range) (fst p) && Rleb (fst p) (snd range)) (List.combine v i)).
  { unfold samples_between. apply filter_ext. intros p. destruct (Rleb_spec (fst range) (fst p)), (Rleb_spec (fst p) (snd range)), (Rle_dec (fst range) (fst p)), (Rle_dec (fst p) (snd range)); cbn [andb]; try reflexivity; contradiction. }
  rewrite EM, EF. split; [rewrite E1 at 2|rewrite E2 at 2]; apply select_map.
Qed.
Lemma two_sided minimize v i vo io range : length v = length i -> bipolar (search_range range) v -> let P := samples_between (search_range range) v i in
  (P = [] -> correct_offset minimize v i vo io range = Err ValueError) /\
  (P <> [] -> exists o, searched minimize P (search_range range) vo io o /\ correct_offset minimize v i vo io range = Ok (map (fun a => a - fst o) v, map (fun a => a - snd o) i, o)).
Proof.
  intros L [[a [A1 A2]] [b [B1 B2]]] P. assert (EL : limits range = search_range range) by (destruct range; reflexivity).
  assert (NE : v <> []) by (intros ->; contradiction). destruct (rmin_some v NE) as [m1 E1]. destruct (amax_some v NE) as [m2 E2].
  destruct (between_selects (search_range range) v i L) as [S1 S2]. fold P in S1, S2. unfold correct_offset. rewrite EL. destruct (search_range range) as [lo hi] eqn:ER. cbn [fst snd] in *.
  rewrite E1, E2. cbn [bind]. apply rmin_ok in E1. apply amax_ok in E2.
  destruct (Rltb_spec m1 lo) as [P1|P1]; [|destruct E1 as [_ E1]; specialize (E1 a A1); lra]. destruct (Rltb_spec hi m2) as [P2|P2]; [|destruct E2 as [_ E2]; specialize (E2 b B1); lra]. cbn [andb negb].
  rewrite S1, S2. cbn [bind]. rewrite !map_length. split; intros N.
  - rewrite N. reflexivity.
  - destruct (Nat.eqb_spec (length P) 0) as [Z|Z]; [apply length_zero_iff_nil in Z; contradiction|]. cbn [negb guard bind].
    destruct (minimize (offset_model (map fst P) (map snd P) lo hi) (or_else vo 0, or_else io (rsum (map snd P) / INR (length P)))) as [x y] eqn:EM. exists (x, y). split; [|reflexivity].
    exists (offset_model (map fst P) (map snd P) lo hi). split.
    + intros I o. exact (model_asymmetry P (lo, hi) o I N).
    + rewrite <- EM. destruct vo, io; reflexivity.
Qed.
Lemma one_sided minimize v i vo io range : v <> [] -> ~ bipolar (search_range range) v -> let o := (match vo with Some a => a | None => 0 end, match io with Some b => b | None => 0 end) in
  correct_offset minimize v i vo io range = Ok (map (fun a => a - fst o) v, map (fun a => a - snd o) i, o).
Proof. intros N B. assert (EL : limits range = search_range range) by (destruct range; reflexivity). rewrite <- EL in B. rewrite unipolar by assumption. now destruct vo, io. Qed.

(** ** Symmetric curves *)
Lemma asymmetry_nonneg P range o e : asymmetry P range o e -> 0 <= e.
Proof. intros [p [q [_ ->]]]. apply cond_pos_sum. intros j. apply Rabs_pos. Qed.
Lemma moved_rising (P : list (R * R)) (o : R * R) : rising (map fst P) -> rising (map (fun p => fst p - fst o) P).
Proof. intros I a b AB B. rewrite map_length in B. specialize (I a b AB ltac:(rewrite map_length; exact B)). rewrite !(nth_map_in fst P _ 0 (0, 0)) in I by lia. rewrite !(nth_map_in _ P _ 0 (0, 0)) by lia. lra. Qed.
Lemma moved_one P o t c c' : rising (map fst P) -> P <> [] -> moved_curve P o t c -> moved_curve P o t c' -> c = c'.
Proof.
  intros I N. unfold moved_curve. apply joined_one; [now apply moved_rising|]. rewrite map_length. destruct P; [contradiction|cbn [List.length]; lia].
Qed.
(** A curve that is symmetric about o is odd when o is the origin. *)
Lemma symmetric_odd P o t c : rising (map fst P) -> P <> [] -> symmetric_about P o -> moved_curve P o t c -> moved_curve P o (- t) (- c).
Proof.
  intros I N SY H. unfold moved_curve in *. set (x := map (fun p => fst p - fst o) P) in *. set (y := map (fun p => snd p - snd o) P) in *.
  assert (LP : (1 <= length P)%nat) by (destruct P; [contradiction|cbn [List.length]; lia]).
  assert (LX : length x = length P) by (unfold x; apply map_length). assert (LY : length y = length P) by (unfold y; apply map_length). rewrite LY, <- LX in H |- *.
  apply turned_joined; [now apply moved_rising|lia|lia|].
  assert (EX : map Ropp (rev x) = x). { apply (list_ext (A := R) _ _ 0); [apply turned_length|]. intros k K. rewrite turned_length in K. rewrite turned_nth by assumption. assert (K' : (k < length P)%nat) by lia. replace (length x) with (length P) by lia. unfold x. rewrite !(nth_map_in _ P _ 0 (0, 0)) by lia. destruct (SY k K'). lra. }
  assert (EY : map Ropp (rev y) = y). { apply (list_ext (A := R) _ _ 0); [apply turned_length|]. intros k K. rewrite turned_length in K. rewrite turned_nth by assumption. assert (K' : (k < length P)%nat) by lia. replace (length y) with (length P) by lia. unfold y. rewrite !(nth_map_in _ P _ 0 (0, 0)) by lia. destruct (SY k K'). lra. }
  rewrite EX, EY. exact H.
Qed.
Lemma symmetric_zero P range o e : rising (map fst P) -> P <> [] -> symmetric_about P o -> asymmetry P range o e -> e = 0.
Proof.
  intros I N SY [p [q [H ->]]]. rewrite <- (sum_eq_R0 (fun j => Rabs (p j + q j)) 100); [reflexivity|]. intros j J. destruct (H j J) as [H1 H2].
  rewrite (moved_one P o _ _ _ I N H2 (symmetric_odd P o _ _ I N SY H1)). rewrite Rplus_opp_r. apply Rabs_R0.
Qed.
Lemma zero_terms (f : nat -> R) n : (forall j, 0 <= f j) -> sum_f_R0 f n = 0 -> forall j, (j <= n)%nat -> f j = 0.
Proof.
  intros P. induction n as [|n IH]; intros Z j J; [replace j with 0%nat by lia; exact Z|]. cbn [sum_f_R0] in Z. pose proof (cond_pos_sum f n P). pose proof (P (S n)). destruct (Nat.eq_dec j (S n)) as [->|D]; [lra|]. apply IH; [lra|lia].
Qed.
(** An optimiser that finds minima makes a symmetric curve odd at the compared voltages. *)
Lemma symmetric_found minimize P range vo io o : (forall f x0 p, (exists q, forall r, f q <= f r) -> f (minimize f x0) <= f p) ->
  rising (map fst P) -> P <> [] -> (exists s, symmetric_about P s) -> searched minimize P range vo io o ->
  asymmetry P range o 0 /\ forall j c c', (j <= 100)%nat -> moved_curve P o (compared range j) c -> moved_curve P o (- compared range j) c' -> c' = - c.
Proof.
  intros M I N [s SY] [f [F E]]. specialize (F I).
  assert (FS : f s = 0) by exact (symmetric_zero P range s (f s) I N SY (F s)).
  assert (FO : f o = 0). { apply Rle_antisym; [|exact (asymmetry_nonneg _ _ _ _ (F o))]. rewrite E at 1. rewrite <- FS. apply M. exists s. intros r. rewrite FS. exact (asymmetry_nonneg _ _ _ _ (F r)). }
  pose proof (F o) as A. rewrite FO in A. split; [exact A|]. intros j c c' J C1 C2. destruct A as [p [q [H Z]]]. symmetry in Z.
  pose proof (zero_terms _ 100 (fun j => Rabs_pos (p j + q j)) Z j J) as T. cbv beta in T. apply Rabs_eq_0 in T || (destruct (Req_dec (p j + q j) 0) as [T'|T']; [|exfalso; exact (Rabs_no_R0 _ T' T)]).
  destruct (H j J) as [H1 H2]. rewrite (moved_one _ _ _ _ _ I N C1 H1), (moved_one _ _ _ _ _ I N C2 H2). lra.
Qed.
(** The offset of a straight line is not determined. *)
Lemma line_flat P range a b o e : rising (map fst P) -> (2 <= length P)%nat -> (forall p, In p P -> snd p = a * fst p + b) -> snd o = a * fst o + b ->
  (forall j, (j <= 100)%nat -> fst (nth 0 P (0, 0)) - fst o <= compared range j <= fst (nth (length P - 1) P (0, 0)) - fst o /\ fst (nth 0 P (0, 0)) - fst o <= - compared range j <= fst (nth (length P - 1) P (0, 0)) - fst o) ->
  asymmetry P range o e -> e = 0.
Proof.
  intros I N OL OO IN [p [q [H ->]]]. rewrite <- (sum_eq_R0 (fun j => Rabs (p j + q j)) 100); [reflexivity|]. intros j J.
  assert (NP : P <> []) by (intros ->; cbn in N; lia). set (x := map (fun p => fst p - fst o) P).
  assert (LX : length x = length P) by (unfold x; apply map_length). assert (IX : rising x) by now apply moved_rising.
  assert (EY : map (fun p => snd p - snd o) P = map (fun u => a * u + 0) x). { unfold x. rewrite map_map. apply map_ext_in. intros w W. rewrite (OL w W), OO. ring. }
  assert (V : forall t, fst (nth 0 P (0, 0)) - fst o <= t <= fst (nth (length P - 1) P (0, 0)) - fst o -> moved_curve P o t (a * t)).
  { intros t T. unfold moved_curve. fold x. rewrite EY, map_length. replace (a * t) with (a * t + 0) by ring. rewrite <- (interp_line x a 0 t IX ltac:(lia)).
    - apply interp_joined; [assumption|apply map_length|lia].
    - rewrite LX. unfold x. rewrite !(nth_map_in _ P _ 0 (0, 0)) by lia. exact T. }
  destruct (H j J) as [H1 H2], (IN j J) as [I1 I2]. rewrite (moved_one _ _ _ _ _ I NP H1 (V _ I1)), (moved_one _ _ _ _ _ I NP H2 (V _ I2)). replace (a * compared range j + a * - compared range j) with 0 by ring. apply Rabs_R0.
Qed.
Lemma ok_same {A} (a b : A) : Ok a = Ok b -> a = b.
Proof. congruence. Qed.
(** What is subtracted, in both cases. *)
Lemma offset_props minimize v i vo io range a b o : length v = length i -> correct_offset minimize v i vo io range = Ok (a, b, o) ->
  let R := search_range range in
  (~ bipolar R v -> o = (match vo with Some a => a | None => 0 end, match io with Some b => b | None => 0 end)) /\
  (bipolar R v -> searched minimize (samples_between R v i) R vo io o).
Proof.
  intros L EO. cbv zeta. split; intros NB.
  - assert (N : v <> []). { intros Q. rewrite Q in EO. unfold correct_offset in EO. destruct (limits range). discriminate. }
    rewrite (one_sided minimize v i vo io range N NB) in EO. apply ok_same in EO. exact (eq_sym (f_equal snd EO)).
  - destruct (two_sided minimize v i vo io range L NB) as [TE TO].
    remember (samples_between (search_range range) v i) as P eqn:EP. destruct P as [|w l].
    + rewrite (TE eq_refl) in EO. discriminate.
    + destruct TO as [o' [SE EO']]; [discriminate|]. rewrite EO' in EO. apply ok_same in EO. apply (f_equal snd) in EO. cbn [snd] in EO. subst o'. exact SE.
Qed.
