(** Proofs about the IF response. *)
From Coq Require Import List ZArith Bool Lia Reals Lra.
From Verif Require Import Base Model_QtCurrent Proof_Circuit Proof_IVModels Float NumPy Proof_NumPy Model_CleanData Proof_IVData Proof_IVCurve Spec_IFData Model_IFData.
Import ListNotations.
Open Scope R_scope.
Local Notation length := List.length.

Lemma linear_pos x : 0 < linear x.
Proof. apply exp_pos. Qed.
Lemma column_of f h c j l : length h = length f -> length c = length f -> (j = 0%nat /\ l = f \/ j = 1%nat /\ l = h \/ j = 2%nat /\ l = c) -> map (fun r => nth j r FNaN) (by_frequency f h c) = l.
Proof.
  intros LH LC H. unfold by_frequency. rewrite map_map. apply (list_ext _ _ FNaN); [rewrite map_length, seq_length; destruct H as [[_ ->]|[[_ ->]|[_ ->]]]; congruence|].
  rewrite map_length, seq_length. intros k K. rewrite nth_map_seq by assumption. destruct H as [[-> ->]|[[-> ->]|[-> ->]]]; reflexivity.
Qed.
Lemma response_rows f h c th tc mx : length h = length f -> length c = length f ->
  if_response {| ncols := 3; rows := by_frequency f h c |} th tc mx = Ok (f, zipwith (response_tn th tc mx) h c, h, c).
Proof.
  intros LH LC. unfold if_response. cbn [ncols rows Nat.eqb bind].
  rewrite (column_of f h c 0 f), (column_of f h c 1 h), (column_of f h c 2 c) by tauto. cbn [bind]. rewrite bcast_eq by congruence. reflexivity.
Qed.
Lemma response_columns f h c th tc mx : length h = length f -> length c = length f -> length f <> 3%nat ->
  if_response {| ncols := length f; rows := by_quantity f h c |} th tc mx = Ok (f, zipwith (response_tn th tc mx) h c, h, c).
Proof.
  intros LH LC N. unfold if_response. cbn [ncols rows by_quantity]. apply Nat.eqb_neq in N. rewrite N. cbn [bind]. rewrite bcast_eq by congruence. reflexivity.
Qed.
Lemma y_pos h c : 0 < linear h / linear c.
Proof. apply Rdiv_lt_0_compat; apply linear_pos. Qed.
(** The Y factor that is used. *)
Definition used (h c : R) : R := let y := linear h / linear c in if Rleb y 1 then 1 + 1 / 10 ^ 6 else y.
Lemma used_gt h c : 1 < used h c.
Proof. unfold used. cbv zeta. destruct (Rleb_spec (linear h / linear c) 1); lra. Qed.
Lemma response_eq th tc mx h c : response_tn th tc mx (FV h) (FV c) =
  let t := (th - tc * used h c) / (used h c - 1) in FV (if Rltb t 0 || Rltb mx t then mx else t).
Proof.
  pose proof (used_gt h c) as U. unfold response_tn, db_to_lin. cbv zeta. fold (linear h) (linear c). pose proof (linear_pos c). cbn [fdiv]. rewrite (Reqb_f (linear c) 0) by lra.
  replace (if fle (FV (linear h / linear c)) (FV 1) then FV (1 + 1 / 10 ^ 6) else FV (linear h / linear c)) with (FV (used h c)).
  - cbn [fmul fsub fopp fadd fdiv flt]. rewrite Reqb_f by lra. cbn [flt]. replace (th + - (tc * used h c)) with (th - tc * used h c) by ring. replace (used h c + - (1)) with (used h c - 1) by ring. destruct (_ || _)%bool; reflexivity.
  - unfold used, fle. cbn [flt feq]. destruct (Rleb_spec (linear h / linear c) 1) as [L|L].
    + destruct (Rltb_spec (linear h / linear c) 1); [reflexivity|]. rewrite Reqb_t by lra. reflexivity.
    + rewrite Rltb_f, Reqb_f by lra. reflexivity.
Qed.
Lemma response_range th tc mx h c : 0 <= mx -> exists t, response_tn th tc mx (FV h) (FV c) = FV t /\ 0 <= t <= mx.
Proof.
  intros M. rewrite response_eq. cbv zeta. eexists. split; [reflexivity|]. destruct (Rltb_spec ((th - tc * used h c) / (used h c - 1)) 0); cbn [orb]; [lra|]. destruct (Rltb_spec mx ((th - tc * used h c) / (used h c - 1))); lra.
Qed.
Lemma response_recovers th tc mx h c G T : tc < th -> 0 < G -> 0 < tc + T -> 0 <= T <= mx -> linear h = G * (th + T) -> linear c = G * (tc + T) ->
  response_tn th tc mx (FV h) (FV c) = FV T.
Proof.
  intros L GP P B EH EC. rewrite response_eq. cbv zeta.
  assert (E : linear h / linear c = 1 + (th - tc) / (tc + T)) by (rewrite EH, EC; field; lra). assert (S : 0 < (th - tc) / (tc + T)) by (apply Rdiv_lt_0_compat; lra).
  assert (U : used h c = 1 + (th - tc) / (tc + T)). { unfold used. rewrite E. cbv zeta. destruct (Rleb_spec (1 + (th - tc) / (tc + T)) 1); [lra|reflexivity]. }
  rewrite U. replace ((th - tc * (1 + (th - tc) / (tc + T))) / (1 + (th - tc) / (tc + T) - 1)) with T by (field; lra). rewrite !Rltb_f by lra. reflexivity.
Qed.
Lemma linear_le a b : a <= b -> linear a <= linear b.
Proof. intros H. apply Rle_Rpower; lra. Qed.
Lemma ln10_pos : 0 < ln 10.
Proof. rewrite <- ln_1. apply ln_increasing; lra. Qed.
Lemma linear_lt a b : a < b -> linear a < linear b.
Proof. intros H. apply Rpower_lt; lra. Qed.
Lemma response_no_signal th tc mx h c : h <= c -> mx < (th - tc) * 10 ^ 6 - tc -> response_tn th tc mx (FV h) (FV c) = FV mx.
Proof.
  intros L M. rewrite response_eq. cbv zeta. assert (U : used h c = 1 + 1 / 10 ^ 6).
  { unfold used. pose proof (linear_le h c L). pose proof (linear_pos c). cbv zeta. destruct (Rleb_spec (linear h / linear c) 1) as [X|X]; [reflexivity|]. exfalso. apply X. apply (Rmult_le_reg_r (linear c)); [assumption|]. unfold Rdiv. rewrite Rmult_assoc, Rinv_l by lra. lra. }
  rewrite U. replace ((th - tc * (1 + 1 / 10 ^ 6)) / (1 + 1 / 10 ^ 6 - 1)) with ((th - tc) * 10 ^ 6 - tc) by (field; lra). rewrite (Rltb_t mx) by assumption. rewrite orb_true_r. reflexivity.
Qed.
Lemma linear_plus a b : linear (a + b) = linear a * linear b.
Proof. unfold linear. rewrite <- Rpower_plus. f_equal. field. Qed.
Lemma response_units th tc mx h c k : response_tn th tc mx (FV (h + k)) (FV (c + k)) = response_tn th tc mx (FV h) (FV c).
Proof.
  rewrite !response_eq. assert (E : used (h + k) (c + k) = used h c). { unfold used. rewrite !linear_plus. replace (linear h * linear k / (linear c * linear k)) with (linear h / linear c); [reflexivity|]. pose proof (linear_pos c). pose proof (linear_pos k). field. lra. }
  now rewrite E.
Qed.
(** Without cold power (-inf dBm) the result is NaN. *)
Lemma response_nan th tc mx h : 0 < tc -> response_tn th tc mx (FV h) FNInf = FNaN.
Proof.
  intros T. unfold response_tn, db_to_lin. cbv zeta. fold (linear h). pose proof (linear_pos h). cbn [fdiv]. rewrite (Reqb_t 0 0), (Reqb_f (linear h)) by lra. unfold finf. rewrite (Rltb_f (linear h)) by lra. cbn [fle flt feq orb fmul]. rewrite (Reqb_f tc) by lra. unfold finf. rewrite (Rltb_f tc) by lra. reflexivity.
Qed.
Lemma response_lists th tc mx h c : zipwith (response_tn th tc mx) (map FV h) (map FV c) = zipwith (fun a b => response_tn th tc mx (FV a) (FV b)) h c.
Proof. revert c. induction h as [|a h IH]; intros [|b c]; try reflexivity. cbn. now rewrite IH. Qed.
Definition clamped (th tc mx h c : R) : R := let t := (th - tc * used h c) / (used h c - 1) in if Rltb t 0 || Rltb mx t then mx else t.
Lemma response_clamped f h c th tc mx : length h = length f -> length c = length f -> 0 <= mx ->
  exists tn, if_response {| ncols := 3; rows := by_frequency (map FV f) (map FV h) (map FV c) |} th tc mx = Ok (map FV f, map FV tn, map FV h, map FV c) /\
    length tn = length f /\ forall k, (k < length f)%nat -> 0 <= nth k tn 0 <= mx.
Proof.
  intros LH LC M. rewrite response_rows by (rewrite !map_length; assumption). exists (zipwith (clamped th tc mx) h c). split; [|split].
  - do 4 f_equal. rewrite response_lists, !zip_combine, map_map. apply map_ext. intros p. apply response_eq.
  - rewrite zipwith_length; congruence.
  - intros k K. rewrite (nth_zipwith _ h c k 0 0) by lia. destruct (response_range th tc mx (nth k h 0) (nth k c 0) M) as [t [E B]]. rewrite response_eq in E. injection E as <-. exact B.
Qed.
Lemma response_orientation f h c th tc mx : length h = length f -> length c = length f -> length f <> 3%nat ->
  if_response {| ncols := length f; rows := by_quantity f h c |} th tc mx = if_response {| ncols := 3; rows := by_frequency f h c |} th tc mx.
Proof. intros. now rewrite response_rows, response_columns. Qed.
Lemma response_gain f h c th tc mx k : length h = length f -> length c = length f ->
  exists tn, if_response {| ncols := 3; rows := by_frequency (map FV f) (map FV h) (map FV c) |} th tc mx = Ok (map FV f, tn, map FV h, map FV c) /\
  if_response {| ncols := 3; rows := by_frequency (map FV f) (map (fun a => FV (a + k)) h) (map (fun a => FV (a + k)) c) |} th tc mx = Ok (map FV f, tn, map (fun a => FV (a + k)) h, map (fun a => FV (a + k)) c).
Proof.
  intros LH LC. eexists. rewrite !response_rows by (rewrite !map_length; assumption). split; [reflexivity|]. do 4 f_equal. rewrite response_lists. clear LH LC f. revert c. induction h as [|a h IH]; intros [|b c]; try reflexivity. cbn. now rewrite IH, response_units.
Qed.
Lemma response_case : linear 30 = 1 * (901 + 99) /\ linear 20 = 1 * (1 + 99) /\ 1 < 901 /\ 0 < 1 + 99 /\ 0 <= 99 <= 100.
Proof.
  assert (P : forall n, linear (10 * INR n) = 10 ^ n). { intros n. unfold linear. replace (10 * INR n / 10) with (INR n) by field. apply Rpower_pow. lra. }
  pose proof (P 3%nat) as P3. pose proof (P 2%nat) as P2. cbn [INR] in P3, P2. replace (10 * (1 + 1 + 1)) with 30 in P3 by ring. replace (10 * (1 + 1)) with 20 in P2 by ring. rewrite P3, P2. lra.
Qed.
