(** Proofs about loading I-V data. *)
From Coq Require Import List ZArith Lia Lra Bool Arith Reals Sorting Permutation String.
From Verif Require Import Base Model_QtCurrent Float NumPy Proof_NumPy Proof_Circuit Spec_CleanData Model_CleanData Proof_CleanData Spec_IVData Model_IVData.
Import ListNotations.
Open Scope R_scope.
Local Notation length := List.length.

(** ** Smallest and largest values *)
Lemma argmin_from_range l best pos next : (pos < next)%nat -> (fargmin_from best pos next l < next + length l)%nat.
Proof.
  revert best pos next. induction l as [|a l IH]; intros best pos next H; cbn [fargmin_from List.length]; [lia|].
  destruct (_ && _)%bool; (eapply Nat.lt_le_trans; [apply IH; lia|lia]).
Qed.
Lemma argmin_range l k : fargmin l = Ok k -> (k < length l)%nat.
Proof. destruct l as [|a l]; [discriminate|]. cbn [fargmin]. intros H. injection H as <-. apply (argmin_from_range l a 0 1). lia. Qed.
Lemma argmin_first_any l : (0 < length l)%nat -> exists k, fargmin l = Ok k.
Proof. destruct l as [|a l]; [cbn [List.length]; lia|]. intros _. eexists. reflexivity. Qed.
Lemma nlt a b : number a -> number b -> flt a b = false -> fle b a = true.
Proof. intros A B H. destruct (fle_total a b A B) as [K|K]; [|assumption]. apply fle_lt_or_eq in K. destruct K as [K| ->]; [congruence|]. unfold fle. rewrite feq_refl by assumption. apply orb_true_r. Qed.
Lemma fle_refl a : number a -> fle a a = true.
Proof. intros. unfold fle. rewrite feq_refl by assumption. apply orb_true_r. Qed.
Lemma argmin_from_spec l : forall best pos next all, all <> [] -> next = length all -> Forall number (all ++ l) -> first_min all pos -> best = nth pos all FNaN ->
  first_min (all ++ l) (fargmin_from best pos next l).
Proof.
  induction l as [|a l IH]; intros best pos next all NE EN N F EB; cbn [fargmin_from]; [now rewrite app_nil_r|].
  assert (NA : number a) by (rewrite Forall_forall in N; apply N; rewrite in_app_iff; right; now left).
  assert (NB : number best). { rewrite Forall_forall in N. apply N. rewrite in_app_iff. left. rewrite EB. apply nth_In. apply F. }
  replace (all ++ a :: l) with ((all ++ [a]) ++ l) in * by now rewrite <- app_assoc.
  assert (NAll : forall j, (j < length all)%nat -> number (nth j all FNaN)). { intros j Hj. rewrite Forall_forall in N. apply N. rewrite !in_app_iff. left. left. now apply nth_In. }
  unfold number in NA, NB. rewrite NA, NB. cbn [negb orb andb]. destruct F as [F1 [F2 F3]]. destruct (flt a best) eqn:E.
  - apply IH; try assumption; [now destruct all|rewrite app_length; cbn [List.length]; lia| |rewrite app_nth2 by lia; now rewrite EN, Nat.sub_diag].
    subst next. unfold first_min. rewrite app_length. cbn [List.length]. split; [lia|]. rewrite app_nth2, Nat.sub_diag by lia. cbn [nth]. split.
    + intros j Hj. destruct (Nat.eq_dec j (length all)) as [->|]; [rewrite app_nth2, Nat.sub_diag by lia; now apply fle_refl|]. rewrite app_nth1 by lia. apply fle_trans with best; [now apply flt_fle|]. rewrite EB. apply F2. lia.
    + intros j Hj. rewrite app_nth1 by lia. apply flt_le_trans with best; [assumption|]. rewrite EB. apply F2. lia.
  - apply IH; try assumption; [now destruct all|rewrite app_length; cbn [List.length]; lia| |now rewrite app_nth1].
    unfold first_min. rewrite app_length. cbn [List.length]. rewrite app_nth1 by assumption. split; [lia|]. split.
    + intros j Hj. destruct (Nat.eq_dec j (length all)) as [->|]; [rewrite app_nth2, Nat.sub_diag by lia; cbn [nth]; rewrite <- EB; now apply nlt|]. rewrite app_nth1 by lia. apply F2. lia.
    + intros j Hj. rewrite app_nth1 by lia. now apply F3.
Qed.
Lemma argmin_first l : l <> [] -> Forall number l -> exists k, fargmin l = Ok k /\ first_min l k.
Proof.
  intros H N. destruct l as [|a l]; [contradiction|]. cbn [fargmin]. eexists. split; [reflexivity|]. change (a :: l) with ([a] ++ l). apply argmin_from_spec; try reflexivity; try assumption; [discriminate|].
  unfold first_min. cbn [List.length]. split; [lia|]. split; intros j Hj; [|lia]. replace j with 0%nat by lia. cbn [nth]. inversion N. now apply fle_refl.
Qed.
Lemma argmax_from_spec l : forall best pos next all, all <> [] -> next = length all -> Forall number (all ++ l) -> first_max all pos -> best = nth pos all FNaN ->
  first_max (all ++ l) (fargmax_from best pos next l).
Proof.
  induction l as [|a l IH]; intros best pos next all NE EN N F EB; cbn [fargmax_from]; [now rewrite app_nil_r|].
  assert (NA : number a) by (rewrite Forall_forall in N; apply N; rewrite in_app_iff; right; now left).
  assert (NB : number best). { rewrite Forall_forall in N. apply N. rewrite in_app_iff. left. rewrite EB. apply nth_In. apply F. }
  replace (all ++ a :: l) with ((all ++ [a]) ++ l) in * by now rewrite <- app_assoc.
  unfold number in NA, NB. rewrite NA, NB. cbn [negb orb andb]. destruct F as [F1 [F2 F3]]. destruct (flt best a) eqn:E.
  - apply IH; try assumption; [now destruct all|rewrite app_length; cbn [List.length]; lia| |rewrite app_nth2 by lia; now rewrite EN, Nat.sub_diag].
    subst next. unfold first_max. rewrite app_length. cbn [List.length]. split; [lia|]. rewrite app_nth2, Nat.sub_diag by lia. cbn [nth]. split.
    + intros j Hj. destruct (Nat.eq_dec j (length all)) as [->|]; [rewrite app_nth2, Nat.sub_diag by lia; now apply fle_refl|]. rewrite app_nth1 by lia. apply fle_trans with best; [|now apply flt_fle]. rewrite EB. apply F2. lia.
    + intros j Hj. rewrite app_nth1 by lia. apply fle_lt_trans with best; [|assumption]. rewrite EB. apply F2. lia.
  - apply IH; try assumption; [now destruct all|rewrite app_length; cbn [List.length]; lia| |now rewrite app_nth1].
    unfold first_max. rewrite app_length. cbn [List.length]. rewrite app_nth1 by assumption. split; [lia|]. split.
    + intros j Hj. destruct (Nat.eq_dec j (length all)) as [->|]; [rewrite app_nth2, Nat.sub_diag by lia; cbn [nth]; rewrite <- EB; now apply nlt|]. rewrite app_nth1 by lia. apply F2. lia.
    + intros j Hj. rewrite app_nth1 by lia. now apply F3.
Qed.
Lemma argmax_first l : l <> [] -> Forall number l -> exists k, fargmax l = Ok k /\ first_max l k.
Proof.
  intros H N. destruct l as [|a l]; [contradiction|]. cbn [fargmax]. eexists. split; [reflexivity|]. change (a :: l) with ([a] ++ l). apply argmax_from_spec; try reflexivity; try assumption; [discriminate|].
  unfold first_max. cbn [List.length]. split; [lia|]. split; intros j Hj; [|lia]. replace j with 0%nat by lia. cbn [nth]. inversion N. now apply fle_refl.
Qed.
Lemma first_min_unique v k k' : first_min v k -> first_min v k' -> k = k'.
Proof.
  intros [A1 [A2 A3]] [B1 [B2 B3]]. destruct (Nat.lt_trichotomy k k') as [L|[L|L]]; [|assumption|].
  - specialize (B3 k L). specialize (A2 k' B1). pose proof (flt_le_trans _ _ _ B3 A2). rewrite flt_irrefl in H. discriminate.
  - specialize (A3 k' L). specialize (B2 k A1). pose proof (flt_le_trans _ _ _ A3 B2). rewrite flt_irrefl in H. discriminate.
Qed.
Lemma first_max_unique v k k' : first_max v k -> first_max v k' -> k = k'.
Proof.
  intros [A1 [A2 A3]] [B1 [B2 B3]]. destruct (Nat.lt_trichotomy k k') as [L|[L|L]]; [|assumption|].
  - specialize (B3 k L). specialize (A2 k' B1). pose proof (fle_lt_trans _ _ _ A2 B3). rewrite flt_irrefl in H. discriminate.
  - specialize (A3 k' L). specialize (B2 k A1). pose proof (fle_lt_trans _ _ _ B2 A3). rewrite flt_irrefl in H. discriminate.
Qed.

(** ** Segments *)
Lemma segment_eq {A} (l : list A) a b : (b < length l)%nat -> segment l a (b + 1) = samples l a b.
Proof.
  intros H. unfold segment, samples, pyslice. rewrite !slice_pos by lia. rewrite !Nat2Z.id. rewrite (Nat.min_r (length l) (b + 1)) by lia.
  destruct (Nat.le_gt_cases a (length l)) as [L|L]; [now rewrite Nat.min_r by lia|]. rewrite Nat.min_l by lia. rewrite !skipn_all2 by lia. now rewrite !firstn_nil.
Qed.
Lemma samples_map {A B} (f : A -> B) l a b : samples (map f l) a b = map f (samples l a b).
Proof. unfold samples. now rewrite skipn_map, firstn_map. Qed.
Lemma samples_length {A} (l : list A) a b : (b < length l)%nat -> length (samples l a b) = (b + 1 - a)%nat.
Proof. intros. unfold samples. rewrite firstn_length, skipn_length. lia. Qed.
Lemma samples_nth {A} (l : list A) a b k d : (k < b + 1 - a)%nat -> nth k (samples l a b) d = nth (a + k) l d.
Proof. intros. unfold samples. rewrite nth_firstn by assumption. apply nth_skipn. Qed.
Lemma samples_in {A} (l : list A) a b x d : (b < length l)%nat -> (In x (samples l a b) <-> exists k, (a <= k <= b)%nat /\ nth k l d = x).
Proof.
  intros H. split.
  - intros I. destruct (In_nth _ _ d I) as [k [K E]]. rewrite samples_length in K by assumption. rewrite samples_nth in E by assumption. exists (a + k)%nat. split; [lia|assumption].
  - intros [k [K <-]]. replace k with (a + (k - a))%nat by lia. rewrite <- (samples_nth l a b (k - a) d) by lia. apply nth_In. rewrite samples_length by assumption. lia.
Qed.

(** ** One pass *)
Lemma one_pass (P : list (fl * fl)) : P <> [] -> Forall number (map fst P) ->
  exists lo hi, first_min (map fst P) lo /\ first_max (map fst P) hi /\
  ((lo = 0%nat /\ hi = (length P - 1)%nat /\ take_one_pass (map fst P) (map snd P) = Ok (map fst P, map snd P)) \/
   (~ (lo = 0%nat /\ hi = (length P - 1)%nat) /\ hi = 0%nat /\ lo = (length P - 1)%nat /\ take_one_pass (map fst P) (map snd P) = Ok (map fst (rev P), map snd (rev P))) \/
   ((hi < lo)%nat /\ (hi, lo) <> (0, length P - 1)%nat /\ exists s, fargmin (map (fun a => fabs (fsub a (nth 0 (map fst P) FNaN))) (samples (map fst P) hi lo)) = Ok (s - hi)%nat /\ (hi <= s <= lo)%nat /\
      let Q := rev (samples P s lo) ++ samples P 0 hi in take_one_pass (map fst P) (map snd P) = Ok (map fst Q, map snd Q)) \/
   ((lo <= hi)%nat /\ (lo, hi) <> (0, length P - 1)%nat /\ exists s, fargmin (map (fun a => fabs (fsub a (nth 0 (map fst P) FNaN))) (samples (map fst P) lo hi)) = Ok (s - lo)%nat /\ (lo <= s <= hi)%nat /\
      let Q := rev (samples P 0 lo) ++ samples P s hi in take_one_pass (map fst P) (map snd P) = Ok (map fst Q, map snd Q))).
Proof.
  intros NE N. set (n := length P). assert (HN : (1 <= n)%nat) by (unfold n; destruct P; [contradiction|simpl; lia]).
  assert (NV : map fst P <> []) by (destruct P; [contradiction|discriminate]).
  destruct (argmin_first _ NV N) as [lo [E1 F1]]. destruct (argmax_first _ NV N) as [hi [E2 F2]]. exists lo, hi. split; [assumption|]. split; [assumption|].
  pose proof (proj1 F1) as L1. pose proof (proj1 F2) as L2. rewrite map_length in L1, L2. fold n in L1, L2. unfold take_one_pass. rewrite E1, E2. cbn [bind]. rewrite map_length. fold n.
  assert (G0 : pyget (map fst P) 0 = Ok (nth 0 (map fst P) FNaN)). { rewrite (pyget_nth _ _ FNaN) by (rewrite map_length; fold n; lia). reflexivity. }
  destruct (Nat.eqb_spec lo 0) as [->|N1]; [destruct (Z.eqb_spec (Z.of_nat hi) (Z.of_nat n - 1)) as [Q|Q]|]; cbn [andb].
  - left. split; [reflexivity|]. split; [lia|reflexivity].
  - destruct (Nat.eqb_spec hi 0) as [->|N2]; [destruct (Z.eqb_spec (Z.of_nat 0) (Z.of_nat n - 1)) as [Q2|Q2]; [lia|]|]; cbn [andb].
    + rewrite G0. cbn [bind]. destruct (Nat.ltb_spec 0 0); [lia|]. right; right; right. split; [lia|]. split; [intros K; injection K as K; lia|]. rewrite segment_eq by (rewrite map_length; fold n; lia).
      destruct (argmin_first_any (map (fun a => fabs (fsub a (nth 0 (map fst P) FNaN))) (samples (map fst P) 0 0))) as [k K]; [rewrite map_length, samples_length by (rewrite map_length; fold n; lia); lia|].
      exists (k + 0)%nat. pose proof (argmin_range _ _ K) as KR. rewrite map_length, samples_length in KR by (rewrite map_length; fold n; lia). rewrite K. split; [f_equal; lia|]. split; [lia|]. cbn [bind]. cbv zeta.
      rewrite !segment_eq by (rewrite map_length; fold n; lia). rewrite !samples_map, !map_app, !map_rev. reflexivity.
    + rewrite G0. cbn [bind]. destruct (Nat.ltb_spec hi 0); [lia|]. right; right; right. split; [lia|]. split; [intros K; injection K as K; lia|]. rewrite segment_eq by (rewrite map_length; fold n; lia).
      destruct (argmin_first_any (map (fun a => fabs (fsub a (nth 0 (map fst P) FNaN))) (samples (map fst P) 0 hi))) as [k K]; [rewrite map_length, samples_length by (rewrite map_length; fold n; lia); lia|].
      exists (k + 0)%nat. pose proof (argmin_range _ _ K) as KR. rewrite map_length, samples_length in KR by (rewrite map_length; fold n; lia). rewrite K. split; [f_equal; lia|]. split; [lia|]. cbn [bind]. cbv zeta.
      rewrite !segment_eq by (rewrite map_length; fold n; lia). rewrite !samples_map, !map_app, !map_rev. reflexivity.
  - destruct (Nat.eqb_spec hi 0) as [->|N2]; [destruct (Z.eqb_spec (Z.of_nat lo) (Z.of_nat n - 1)) as [Q2|Q2]|]; cbn [andb].
    + right; left. split; [lia|]. split; [reflexivity|]. split; [lia|]. now rewrite !map_rev.
    + rewrite G0. cbn [bind]. destruct (Nat.ltb_spec 0 lo); [|lia]. right; right; left. split; [lia|]. split; [intros K; injection K as K; lia|]. rewrite segment_eq by (rewrite map_length; fold n; lia).
      destruct (argmin_first_any (map (fun a => fabs (fsub a (nth 0 (map fst P) FNaN))) (samples (map fst P) 0 lo))) as [k K]; [rewrite map_length, samples_length by (rewrite map_length; fold n; lia); lia|].
      exists (k + 0)%nat. pose proof (argmin_range _ _ K) as KR. rewrite map_length, samples_length in KR by (rewrite map_length; fold n; lia). rewrite K. split; [f_equal; lia|]. split; [lia|]. cbn [bind]. cbv zeta.
      rewrite !segment_eq by (rewrite map_length; fold n; lia). rewrite !samples_map, !map_app, !map_rev. reflexivity.
    + rewrite G0. cbn [bind]. destruct (Nat.ltb_spec hi lo) as [LT|LT].
      * right; right; left. split; [lia|]. split; [intros K; injection K as K; lia|]. rewrite segment_eq by (rewrite map_length; fold n; lia).
        destruct (argmin_first_any (map (fun a => fabs (fsub a (nth 0 (map fst P) FNaN))) (samples (map fst P) hi lo))) as [k K]; [rewrite map_length, samples_length by (rewrite map_length; fold n; lia); lia|].
        exists (k + hi)%nat. pose proof (argmin_range _ _ K) as KR. rewrite map_length, samples_length in KR by (rewrite map_length; fold n; lia). rewrite K. split; [f_equal; lia|]. split; [lia|]. cbn [bind]. cbv zeta.
        rewrite !segment_eq by (rewrite map_length; fold n; lia). rewrite !samples_map, !map_app, !map_rev. reflexivity.
      * right; right; right. split; [lia|]. split; [intros K; injection K as K; lia|]. rewrite segment_eq by (rewrite map_length; fold n; lia).
        destruct (argmin_first_any (map (fun a => fabs (fsub a (nth 0 (map fst P) FNaN))) (samples (map fst P) lo hi))) as [k K]; [rewrite map_length, samples_length by (rewrite map_length; fold n; lia); lia|].
        exists (k + lo)%nat. pose proof (argmin_range _ _ K) as KR. rewrite map_length, samples_length in KR by (rewrite map_length; fold n; lia). rewrite K. split; [f_equal; lia|]. split; [lia|]. cbn [bind]. cbv zeta.
        rewrite !segment_eq by (rewrite map_length; fold n; lia). rewrite !samples_map, !map_app, !map_rev. reflexivity.
Qed.
Lemma one_pass_props (P : list (fl * fl)) : P <> [] -> Forall number (map fst P) ->
  exists Q lo hi, take_one_pass (map fst P) (map snd P) = Ok (map fst Q, map snd Q) /\ incl Q P /\
    In lo Q /\ In hi Q /\ (forall p, In p P -> fle (fst lo) (fst p) = true /\ fle (fst p) (fst hi) = true) /\ (2 <= length P -> 2 <= length Q)%nat.
Proof.
  intros NE N. destruct (one_pass P NE N) as [lo [hi [F1 [F2 H]]]]. set (d := (FNaN, FNaN)).
  pose proof (proj1 F1) as L1. pose proof (proj1 F2) as L2. rewrite map_length in L1, L2.
  assert (EX : forall p, In p P -> fle (fst (nth lo P d)) (fst p) = true /\ fle (fst p) (fst (nth hi P d)) = true).
  { intros p Hp. destruct (In_nth _ _ d Hp) as [k [K <-]]. destruct F1 as [_ [F1 _]]. destruct F2 as [_ [F2 _]].
    specialize (F1 k). specialize (F2 k). rewrite map_length in F1, F2. change FNaN with (fst d) in F1, F2. rewrite !map_nth in F1, F2. split; auto. }
  assert (SUB : forall a b, (b < length P)%nat -> incl (samples P a b) P).
  { intros a b B p Hp. apply (samples_in P a b p d B) in Hp. destruct Hp as [k [K <-]]. apply nth_In. lia. }
  destruct H as [[E1 [E2 E]]|[[_ [E1 [E2 E]]]|[[LT [_ [s [_ [HS E]]]]]|[LT [_ [s [_ [HS E]]]]]]]]; cbv zeta in E.
  - exists P, (nth lo P d), (nth hi P d). split; [assumption|]. split; [apply incl_refl|]. split; [apply nth_In; lia|]. split; [apply nth_In; lia|]. split; [exact EX|lia].
  - exists (rev P), (nth lo P d), (nth hi P d). split; [assumption|]. split; [intros p Hp; now apply in_rev|]. split; [apply in_rev; rewrite rev_involutive; apply nth_In; lia|]. split; [apply in_rev; rewrite rev_involutive; apply nth_In; lia|]. split; [exact EX|rewrite rev_length; lia].
  - exists (rev (samples P s lo) ++ samples P 0 hi), (nth lo P d), (nth hi P d). split; [assumption|]. split; [|split; [|split; [|split]]].
    + intros p Hp. apply in_app_iff in Hp. destruct Hp as [Hp|Hp]; [apply in_rev in Hp|]; eapply SUB; try exact Hp; assumption.
    + apply in_app_iff. left. apply in_rev. rewrite rev_involutive. apply (samples_in P s lo _ d L1). exists lo. split; [lia|reflexivity].
    + apply in_app_iff. right. apply (samples_in P 0 hi _ d L2). exists hi. split; [lia|reflexivity].
    + exact EX.
    + rewrite app_length, rev_length, !samples_length by assumption. lia.
  - exists (rev (samples P 0 lo) ++ samples P s hi), (nth lo P d), (nth hi P d). split; [assumption|]. split; [|split; [|split; [|split]]].
    + intros p Hp. apply in_app_iff in Hp. destruct Hp as [Hp|Hp]; [apply in_rev in Hp|]; eapply SUB; try exact Hp; assumption.
    + apply in_app_iff. left. apply in_rev. rewrite rev_involutive. apply (samples_in P 0 lo _ d L1). exists lo. split; [lia|reflexivity].
    + apply in_app_iff. right. apply (samples_in P s hi _ d L2). exists hi. split; [lia|reflexivity].
    + exact EX.
    + rewrite app_length, rev_length, !samples_length by assumption. lia.
Qed.

(** ** Loading *)
Lemma vfmt_volts u : vfmt u = match volts u with Some c => Ok c | None => Err KeyError end.
Proof. unfold vfmt, volts. destruct (String.eqb u "uV"); [f_equal; lra|]. destruct (String.eqb u "mV"); [f_equal; lra|]. now destruct (String.eqb u "V"). Qed.
Lemma ifmt_amperes u : ifmt u = match amperes u with Some c => Ok c | None => Err KeyError end.
Proof. unfold ifmt, amperes. destruct (String.eqb u "uA"); [f_equal; lra|]. destruct (String.eqb u "mA"); [f_equal; lra|]. now destruct (String.eqb u "A"). Qed.
Lemma volts_pos u c : volts u = Some c -> 0 < c.
Proof. unfold volts. destruct (String.eqb u "uV"); [intros H; injection H as <-; lra|]. destruct (String.eqb u "mV"); [intros H; injection H as <-; lra|]. destruct (String.eqb u "V"); [intros H; injection H as <-; lra|discriminate]. Qed.
Lemma amperes_pos u c : amperes u = Some c -> 0 < c.
Proof. unfold amperes. destruct (String.eqb u "uA"); [intros H; injection H as <-; lra|]. destruct (String.eqb u "mA"); [intros H; injection H as <-; lra|]. destruct (String.eqb u "A"); [intros H; injection H as <-; lra|discriminate]. Qed.
Lemma fmul_number a c : 0 < c -> (number (fmul a (FV c)) <-> number a).
Proof.
  intros C. assert (E : Reqb c 0 = false) by (destruct (Reqb_spec c 0); [lra|reflexivity]).
  unfold number, fmul, finf. destruct a; rewrite ?E; try (destruct (Rltb _ _)); cbn; tauto.
Qed.

Definition scaled_points (uv ui : R) (m : list (list fl)) : list (fl * fl) :=
  map (fun r => (fmul (nth 0 r FNaN) (FV uv), fmul (nth 1 r FNaN) (FV ui))) m.
Definition both_numbers (p : fl * fl) : bool := negb (fisnan (fst p)) && negb (fisnan (snd p)).

Lemma load_eq s m fv fi uv ui : ncols m = 2%nat -> volts fv = Some uv -> amperes fi = Some ui ->
  let P := filter both_numbers (scaled_points uv ui (rows m)) in
  load_iv s m fv fi = (let* (v, i) := take_one_pass (map fst P) (map snd P) in let* (v, i) := sort_xy s v i in remove_doubles_xy v i true).
Proof.
  intros NC HV HI P. unfold load_iv. rewrite NC. cbn [Nat.eqb guard bind]. unfold column. rewrite NC. cbn. rewrite vfmt_volts, ifmt_amperes, HV, HI. cbn [bind].
  rewrite !map_map. rewrite nans_xy by now rewrite !map_length. cbn [bind fst snd].
  replace (good_points _ _) with P; [reflexivity|]. unfold P, good_points, scaled_points, both_numbers.
  f_equal. clear. induction (rows m) as [|r l IH]; [reflexivity|]. cbn [map List.combine]. now rewrite IH.
Qed.
Lemma load_clean s m fv fi uv ui Q : sorting s -> ncols m = 2%nat -> volts fv = Some uv -> amperes fi = Some ui ->
  let P := filter both_numbers (scaled_points uv ui (rows m)) in
  take_one_pass (map fst P) (map snd P) = Ok (map fst Q, map snd Q) -> incl Q P ->
  load_iv s m fv fi = clean_xy s (map fst Q) (map snd Q).
Proof.
  intros SO NC HV HI P E IN. rewrite (load_eq s m fv fi uv ui NC HV HI). fold P. rewrite E. cbn [bind fst snd].
  unfold clean_xy. rewrite !map_length, Nat.eqb_refl. cbn [guard bind]. rewrite nans_xy by now rewrite !map_length. cbn [bind fst snd].
  assert (NQ : forall p, In p Q -> both_numbers p = true). { intros p Hp. apply IN in Hp. now apply filter_In in Hp. }
  replace (good_points (map fst Q) (map snd Q)) with Q; [reflexivity|]. unfold good_points. rewrite combine_map. symmetry.
  clear - NQ. induction Q as [|q Q IH]; [reflexivity|]. cbn [filter]. rewrite (NQ q (or_introl eq_refl)) || (pose proof (NQ q (or_introl eq_refl)) as E; unfold both_numbers in E; rewrite E). f_equal. apply IH. intros p Hp. apply NQ. now right.
Qed.
Lemma points_in q a b : point (map fst q) (map snd q) a b <-> In (a, b) q.
Proof. rewrite point_combine by now rewrite !map_length. now rewrite combine_map. Qed.
Lemma load_inv s m fv fi r : load_iv s m fv fi = Ok r -> ncols m = 2%nat /\ exists uv ui, volts fv = Some uv /\ amperes fi = Some ui.
Proof.
  unfold load_iv. destruct (Nat.eqb_spec (ncols m) 2) as [NC|NC]; [|discriminate]. cbn [guard bind]. unfold column. rewrite NC. cbn.
  rewrite vfmt_volts, ifmt_amperes. destruct (volts fv); [|discriminate]. destruct (amperes fi); [|discriminate]. intros _. split; [reflexivity|]. eexists. eexists. split; reflexivity.
Qed.
Lemma good_row_number uv ui r : 0 < uv -> 0 < ui -> (both_numbers (fmul (nth 0 r FNaN) (FV uv), fmul (nth 1 r FNaN) (FV ui)) = true <-> number (nth 0 r FNaN) /\ number (nth 1 r FNaN)).
Proof.
  intros A B. rewrite <- (fmul_number (nth 0 r FNaN) uv A), <- (fmul_number (nth 1 r FNaN) ui B). unfold both_numbers, number. cbn [fst snd].
  destruct (fisnan _), (fisnan _); cbn; intuition discriminate.
Qed.

Lemma load_props s m fv fi x y : sorting s -> load_iv s m fv fi = Ok (x, y) ->
  exists uv ui, volts fv = Some uv /\ amperes fi = Some ui /\
  List.length x = List.length y /\ Forall number x /\ Forall number y /\ increasing x /\
  (forall a b, point x y a b -> exists r, In r (rows m) /\ a = fmul (nth 0 r FNaN) (FV uv) /\ b = fmul (nth 1 r FNaN) (FV ui)) /\
  (exists lo hi, In lo x /\ In hi x /\
     forall r, In r (rows m) -> number (nth 0 r FNaN) -> number (nth 1 r FNaN) ->
       fle lo (fmul (nth 0 r FNaN) (FV uv)) = true /\ fle (fmul (nth 0 r FNaN) (FV uv)) hi = true).
Proof.
  intros SO H. destruct (load_inv _ _ _ _ _ H) as [NC [uv [ui [HV HI]]]]. exists uv, ui. split; [assumption|]. split; [assumption|].
  set (P := filter both_numbers (scaled_points uv ui (rows m))).
  assert (NEP : P <> []). { intros E. rewrite (load_eq s m fv fi uv ui NC HV HI) in H. fold P in H. rewrite E in H. discriminate. }
  assert (NP : Forall number (map fst P)).
  { rewrite Forall_forall. intros a Ha. apply in_map_iff in Ha. destruct Ha as [p [<- Hp]]. apply filter_In in Hp. destruct Hp as [_ Hp]. unfold both_numbers in Hp. apply andb_prop in Hp. unfold number. now destruct (fisnan (fst p)). }
  destruct (one_pass_props P NEP NP) as [Q [lo [hi [E [IN [LO [HI' [EX _]]]]]]]].
  rewrite (load_clean s m fv fi uv ui Q SO NC HV HI E IN) in H.
  destruct (clean_props s _ _ x y SO H) as [A [B [C [D [F G]]]]]. split; [assumption|]. split; [assumption|]. split; [assumption|]. split; [assumption|].
  assert (GQ : forall q, In q Q -> In (fst q) x).
  { intros q Hq. assert (BN : both_numbers q = true) by (apply IN in Hq; now apply filter_In in Hq). unfold both_numbers in BN. apply andb_prop in BN.
    destruct (G (fst q) (snd q)) as [b' [k [K _]]]; [rewrite points_in; now destruct q|unfold number; now destruct (fisnan (fst q))|unfold number; now destruct (fisnan (snd q))|]. now apply nth_error_In in K. }
  split.
  - intros a b Hp. apply F in Hp. apply points_in in Hp. apply IN in Hp. apply filter_In in Hp. destruct Hp as [Hp _]. unfold scaled_points in Hp. apply in_map_iff in Hp. destruct Hp as [r [E' R]]. injection E' as <- <-. exists r. auto.
  - exists (fst lo), (fst hi). split; [now apply GQ|]. split; [now apply GQ|]. intros r R N0 N1.
    apply (EX (fmul (nth 0 r FNaN) (FV uv), fmul (nth 1 r FNaN) (FV ui))). apply filter_In. split; [apply in_map_iff; exists r; auto|].
    apply good_row_number; [now apply volts_pos with fv|now apply amperes_pos with fi|auto].
Qed.

(** ** Sweeps *)
Lemma first_min_reals v k (g : R -> R) : (forall a b, a < b -> g a < g b) -> (k < length v)%nat -> (forall j, (j < length v)%nat -> nth k v 0 <= nth j v 0) ->
  (forall j, (j < k)%nat -> nth k v 0 < nth j v 0) -> first_min (map (fun j => FV (g (nth j v 0))) (seq 0 (length v))) k.
Proof.
  intros G K A B. assert (GL : forall a b, a <= b -> g a <= g b) by (intros a b [L| ->]; [left; auto|right; reflexivity]).
  unfold first_min. rewrite map_length, seq_length. split; [assumption|]. split; intros j Hj; rewrite !nth_map_seq by lia.
  - apply fle_v. apply GL. auto.
  - apply flt_spec_v. apply G. auto.
Qed.
Lemma first_max_reals v k (g : R -> R) : (forall a b, a < b -> g a < g b) -> (k < length v)%nat -> (forall j, (j < length v)%nat -> nth j v 0 <= nth k v 0) ->
  (forall j, (j < k)%nat -> nth j v 0 < nth k v 0) -> first_max (map (fun j => FV (g (nth j v 0))) (seq 0 (length v))) k.
Proof.
  intros G K A B. assert (GL : forall a b, a <= b -> g a <= g b) by (intros a b [L| ->]; [left; auto|right; reflexivity]).
  unfold first_max. rewrite map_length, seq_length. split; [assumption|]. split; intros j Hj; rewrite !nth_map_seq by lia.
  - apply fle_v. apply GL. auto.
  - apply flt_spec_v. apply G. auto.
Qed.
Lemma sweep_pairs uv ui v i : filter both_numbers (scaled_points uv ui (measured v i)) = map (fun k => (FV (nth k v 0 * uv), FV (nth k i 0 * ui))) (seq 0 (length v)).
Proof.
  unfold scaled_points, measured. rewrite map_map. cbn [nth fmul]. induction (seq 0 (length v)) as [|k l IH]; [reflexivity|]. cbn [map filter both_numbers fst snd fisnan negb andb]. now rewrite IH.
Qed.
(** The position chosen among a..b is one closest to the first voltage. *)
Lemma closest v uv a b s : 0 < uv -> (b < length v)%nat -> (a <= b)%nat ->
  fargmin (map (fun x => fabs (fsub x (FV (nth 0 v 0 * uv)))) (samples (map (fun j => FV (nth j v 0 * uv)) (seq 0 (length v))) a b)) = Ok (s - a)%nat -> (a <= s <= b)%nat ->
  forall j, (a <= j <= b)%nat -> Rabs (nth s v 0 - nth 0 v 0) <= Rabs (nth j v 0 - nth 0 v 0).
Proof.
  intros U B AB E S j J. set (W := samples (map (fun j => FV (nth j v 0 * uv)) (seq 0 (length v))) a b) in *.
  assert (LW : length W = (b + 1 - a)%nat) by (unfold W; rewrite samples_length; [lia|rewrite map_length, seq_length; lia]).
  assert (NW : forall k, (k < b + 1 - a)%nat -> nth k (map (fun x => fabs (fsub x (FV (nth 0 v 0 * uv)))) W) FNaN = FV (Rabs (nth (a + k) v 0 - nth 0 v 0) * uv)).
  { intros k K. rewrite (nth_indep _ FNaN (fabs (fsub FNaN (FV (nth 0 v 0 * uv))))) by (rewrite map_length; lia). rewrite (map_nth (fun x => fabs (fsub x (FV (nth 0 v 0 * uv))))). unfold W. rewrite samples_nth by assumption. rewrite nth_map_seq by lia.
    cbn [fsub fopp fadd fabs]. f_equal. replace (nth (a + k) v 0 * uv + - (nth 0 v 0 * uv)) with ((nth (a + k) v 0 - nth 0 v 0) * uv) by ring. rewrite Rabs_mult, (Rabs_right uv); lra. }
  destruct (argmin_first (map (fun x => fabs (fsub x (FV (nth 0 v 0 * uv)))) W)) as [k [K1 [K2 [K3 _]]]].
  - intros E0. apply (f_equal (@length fl)) in E0. rewrite map_length, LW in E0. simpl in E0. lia.
  - rewrite Forall_forall. intros x Hx. destruct (In_nth _ _ FNaN Hx) as [k [K <-]]. rewrite map_length, LW in K. rewrite NW by assumption. reflexivity.
  - rewrite K1 in E. injection E as ->. specialize (K3 (j - a)%nat). rewrite map_length, LW in K3. specialize (K3 ltac:(lia)). rewrite !NW in K3 by lia. apply fle_v in K3.
    replace (a + (s - a))%nat with s in K3 by lia. replace (a + (j - a))%nat with j in K3 by lia. now apply Rmult_le_reg_r in K3.
Qed.
Lemma finite_clean s Q : sorting s -> (forall p, In p Q -> exists a b, p = (FV a, FV b)) -> (2 <= length Q)%nat -> exists r, clean_xy s (map fst Q) (map snd Q) = Ok r.
Proof.
  intros SO F L. apply (proj1 (clean_accepts s (map fst Q) (map snd Q) SO ltac:(now rewrite !map_length))).
  assert (G : good_points (map fst Q) (map snd Q) = Q).
  { unfold good_points. rewrite combine_map. clear L. induction Q as [|q Q IH]; [reflexivity|]. destruct (F q (or_introl eq_refl)) as [a [b ->]]. cbn [filter fst snd fisnan negb andb]. f_equal. apply IH. intros p Hp. apply F. now right. }
  unfold points_at. rewrite G. split; [assumption|].
  assert (Z : forall c, (forall x, feq (FV x) c = false) -> filter (fun p : fl * fl => feq (fst p) c) Q = []).
  { intros c C. clear L G. induction Q as [|q Q IH]; [reflexivity|]. destruct (F q (or_introl eq_refl)) as [a [b ->]]. cbn [filter fst]. rewrite C. apply IH. intros p Hp. apply F. now right. }
  rewrite !Z by reflexivity. simpl. lia.
Qed.
Lemma kept_pairs s (K : nat -> Prop) v i uv ui Q x y : sorting s ->
  (forall p, In p Q <-> exists k, K k /\ p = (FV (nth k v 0 * uv), FV (nth k i 0 * ui))) -> clean_xy s (map fst Q) (map snd Q) = Ok (x, y) -> kept K v i uv ui x y.
Proof.
  intros SO HQ H. destruct (clean_props s _ _ x y SO H) as [_ [_ [_ [_ [F G]]]]]. split.
  - intros p q Hp. apply F in Hp. apply points_in in Hp. apply HQ in Hp. destruct Hp as [k [Hk E]]. injection E as -> ->. exists k. auto.
  - intros k Hk. destruct (G (FV (nth k v 0 * uv)) (FV (nth k i 0 * ui))) as [b' [j [J _]]]; [apply points_in; apply HQ; exists k; auto|reflexivity|reflexivity|]. now apply nth_error_In in J.
Qed.
Lemma sweep_down s fv fi uv ui v i a b : sorting s -> volts fv = Some uv -> amperes fi = Some ui ->
  (a < b < length v)%nat -> rises v 0 a -> falls v a b -> rises v b (length v - 1) -> nth (length v - 1) v 0 <= nth a v 0 -> nth b v 0 < nth 0 v 0 ->
  exists x y start, load_iv s {| ncols := 2; rows := measured v i |} fv fi = Ok (x, y) /\ (a <= start <= b)%nat /\
    (forall j, (a <= j <= b)%nat -> Rabs (nth start v 0 - nth 0 v 0) <= Rabs (nth j v 0 - nth 0 v 0)) /\
    kept (fun k => (k <= a \/ start <= k <= b)%nat) v i uv ui x y.
Proof.
  intros SO HV HI AB R1 D R2 HM HL. pose proof (volts_pos _ _ HV) as UP. set (n := length v) in *.
  set (P := map (fun k => (FV (nth k v 0 * uv), FV (nth k i 0 * ui))) (seq 0 n)).
  assert (EP : filter both_numbers (scaled_points uv ui (rows {| ncols := 2; rows := measured v i |})) = P) by apply sweep_pairs.
  assert (LP : length P = n) by (unfold P; now rewrite map_length, seq_length).
  assert (FP : map fst P = map (fun k => FV (nth k v 0 * uv)) (seq 0 n)) by (unfold P; rewrite map_map; reflexivity).
  assert (MONO : forall x y, x < y -> x * uv < y * uv) by (intros; nra).
  assert (FM : first_max (map fst P) a).
  { rewrite FP. apply (first_max_reals v a (fun x => x * uv)); [assumption|fold n; lia| |].
    - fold n. intros j Hj. destruct (Nat.lt_trichotomy j a) as [L|[->|L]]; [left; apply R1; lia|lra|]. destruct (Nat.le_gt_cases j b) as [L'|L']; [left; apply D; lia|].
      destruct (Nat.eq_dec j (n - 1)) as [->|]; [assumption|]. apply Rle_trans with (nth (n - 1) v 0); [left; apply R2; lia|assumption].
    - intros j Hj. apply R1; lia. }
  assert (FL : first_min (map fst P) b).
  { assert (LOW : forall j, (j < n)%nat -> (j <> b)%nat -> nth b v 0 < nth j v 0).
    { intros j Hj NE. destruct (Nat.le_gt_cases j a) as [L|L].
      - destruct (Nat.eq_dec j 0) as [->|]; [assumption|]. apply Rlt_trans with (nth 0 v 0); [assumption|]. apply R1; lia.
      - destruct (Nat.lt_trichotomy j b) as [L'|[L'|L']]; [apply D; lia|lia|apply R2; lia]. }
    rewrite FP. apply (first_min_reals v b (fun x => x * uv)); [assumption|fold n; lia| |].
    - fold n. intros j Hj. destruct (Nat.eq_dec j b) as [->|]; [lra|]. left. now apply LOW.
    - intros j Hj. apply LOW; lia. }
  assert (NP : Forall number (map fst P)). { rewrite FP, Forall_forall. intros x Hx. apply in_map_iff in Hx. destruct Hx as [k [<- _]]. reflexivity. }
  assert (NEP : P <> []) by (intros E; rewrite E in LP; simpl in LP; lia).
  assert (NTH : forall k d, (k < n)%nat -> nth k P d = (FV (nth k v 0 * uv), FV (nth k i 0 * ui))) by (intros k d K; unfold P; now rewrite nth_map_seq).
  assert (IP : forall p, In p P <-> exists k, (k < n)%nat /\ p = (FV (nth k v 0 * uv), FV (nth k i 0 * ui))).
  { intros p. unfold P. rewrite in_map_iff. split; intros [k [K1 K2]]; exists k; [rewrite in_seq in K2; split; [lia|auto]|rewrite in_seq; split; [auto|lia]]. }
  assert (IS : forall u w p, (w < n)%nat -> (In p (samples P u w) <-> exists k, (u <= k <= w)%nat /\ p = (FV (nth k v 0 * uv), FV (nth k i 0 * ui)))).
  { intros u w p W. rewrite (samples_in P u w p (FNaN, FNaN)) by lia. split; intros [k [K1 K2]]; exists k; (split; [assumption|]); [rewrite NTH in K2 by lia; auto|rewrite NTH by lia; auto]. }
  assert (FIN : forall Q st, (a <= st <= b)%nat -> take_one_pass (map fst P) (map snd P) = Ok (map fst Q, map snd Q) ->
     (forall p, In p Q <-> exists k, (k <= a \/ st <= k <= b)%nat /\ p = (FV (nth k v 0 * uv), FV (nth k i 0 * ui))) -> (2 <= length Q)%nat ->
     exists x y, load_iv s {| ncols := 2; rows := measured v i |} fv fi = Ok (x, y) /\ kept (fun k => (k <= a \/ st <= k <= b)%nat) v i uv ui x y).
  { intros Q st ST E HQ LQ. destruct (finite_clean s Q SO) as [[x y] C]; [|assumption|].
    - intros p Hp. apply HQ in Hp. destruct Hp as [k [_ ->]]. eauto.
    - exists x, y. split; [|now apply kept_pairs with s Q]. rewrite <- C.
      apply (load_clean s {| ncols := 2; rows := measured v i |} fv fi uv ui Q SO eq_refl HV HI); rewrite EP; [assumption|].
      intros p Hp. apply HQ in Hp. destruct Hp as [k [Hk ->]]. apply IP. exists k. split; [lia|reflexivity]. }
  destruct (one_pass P NEP NP) as [lo [hi [F1 [F2 H]]]].
  pose proof (first_min_unique _ _ _ F1 FL). pose proof (first_max_unique _ _ _ F2 FM). subst lo hi. rewrite LP in H.
  destruct H as [[E1 [E2 E]]|[[_ [E1 [E2 E]]]|[[LT [_ [st [Ek [HS E]]]]]|[LT _]]]]; [lia| | |lia].
  - destruct (FIN (rev P) 0%nat) as [x [y [H1 H2]]]; [lia|assumption| |rewrite rev_length; lia|].
    + intros p. rewrite <- in_rev, IP. split; intros [k [K1 K2]]; exists k; (split; [lia|assumption]).
    + exists x, y, 0%nat. split; [assumption|]. split; [lia|]. split; [|assumption]. intros j Hj. rewrite Rminus_diag_eq by reflexivity. rewrite Rabs_R0. apply Rabs_pos.
  - cbv zeta in E. destruct (FIN (rev (samples P st b) ++ samples P 0 a) st) as [x [y [H1 H2]]]; [lia|assumption| | |].
    + intros p. rewrite in_app_iff, <- in_rev, !IS by lia. split.
      * intros [[k [K1 K2]]|[k [K1 K2]]]; exists k; (split; [lia|assumption]).
      * intros [k [[K|K] K2]]; [right|left]; exists k; (split; [lia|assumption]).
    + rewrite app_length, rev_length, !samples_length by lia. lia.
    + exists x, y, st. split; [assumption|]. split; [assumption|]. split; [|assumption].
      intros j Hj. apply (closest v uv a b st UP); try lia; try assumption. fold n. rewrite <- FP. rewrite <- Ek. rewrite FP. rewrite nth_map_seq by lia. reflexivity.
Qed.
Lemma sweep_up s fv fi uv ui v i a b : sorting s -> volts fv = Some uv -> amperes fi = Some ui ->
  (a < b < length v)%nat -> falls v 0 a -> rises v a b -> falls v b (length v - 1) -> nth a v 0 <= nth (length v - 1) v 0 -> nth 0 v 0 < nth b v 0 ->
  exists x y start, load_iv s {| ncols := 2; rows := measured v i |} fv fi = Ok (x, y) /\ (a <= start <= b)%nat /\
    (forall j, (a <= j <= b)%nat -> Rabs (nth start v 0 - nth 0 v 0) <= Rabs (nth j v 0 - nth 0 v 0)) /\
    kept (fun k => (k <= a \/ start <= k <= b)%nat) v i uv ui x y.
Proof.
  intros SO HV HI AB R1 D R2 HM HL. pose proof (volts_pos _ _ HV) as UP. set (n := length v) in *.
  set (P := map (fun k => (FV (nth k v 0 * uv), FV (nth k i 0 * ui))) (seq 0 n)).
  assert (EP : filter both_numbers (scaled_points uv ui (rows {| ncols := 2; rows := measured v i |})) = P) by apply sweep_pairs.
  assert (LP : length P = n) by (unfold P; now rewrite map_length, seq_length).
  assert (FP : map fst P = map (fun k => FV (nth k v 0 * uv)) (seq 0 n)) by (unfold P; rewrite map_map; reflexivity).
  assert (MONO : forall x y, x < y -> x * uv < y * uv) by (intros; nra).
  assert (FM : first_min (map fst P) a).
  { rewrite FP. apply (first_min_reals v a (fun x => x * uv)); [assumption|fold n; lia| |].
    - fold n. intros j Hj. destruct (Nat.lt_trichotomy j a) as [L|[->|L]]; [left; apply R1; lia|lra|]. destruct (Nat.le_gt_cases j b) as [L'|L']; [left; apply D; lia|].
      destruct (Nat.eq_dec j (n - 1)) as [->|]; [assumption|]. apply Rle_trans with (nth (n - 1) v 0); [assumption|left; apply R2; lia].
    - intros j Hj. apply R1; lia. }
  assert (FL : first_max (map fst P) b).
  { assert (LOW : forall j, (j < n)%nat -> (j <> b)%nat -> nth j v 0 < nth b v 0).
    { intros j Hj NE. destruct (Nat.le_gt_cases j a) as [L|L].
      - destruct (Nat.eq_dec j 0) as [->|]; [assumption|]. apply Rlt_trans with (nth 0 v 0); [|assumption]. apply R1; lia.
      - destruct (Nat.lt_trichotomy j b) as [L'|[L'|L']]; [apply D; lia|lia|apply R2; lia]. }
    rewrite FP. apply (first_max_reals v b (fun x => x * uv)); [assumption|fold n; lia| |].
    - fold n. intros j Hj. destruct (Nat.eq_dec j b) as [->|]; [lra|]. left. now apply LOW.
    - intros j Hj. apply LOW; lia. }
  assert (NP : Forall number (map fst P)). { rewrite FP, Forall_forall. intros x Hx. apply in_map_iff in Hx. destruct Hx as [k [<- _]]. reflexivity. }
  assert (NEP : P <> []) by (intros E; rewrite E in LP; simpl in LP; lia).
  assert (NTH : forall k d, (k < n)%nat -> nth k P d = (FV (nth k v 0 * uv), FV (nth k i 0 * ui))) by (intros k d K; unfold P; now rewrite nth_map_seq).
  assert (IP : forall p, In p P <-> exists k, (k < n)%nat /\ p = (FV (nth k v 0 * uv), FV (nth k i 0 * ui))).
  { intros p. unfold P. rewrite in_map_iff. split; intros [k [K1 K2]]; exists k; [rewrite in_seq in K2; split; [lia|auto]|rewrite in_seq; split; [auto|lia]]. }
  assert (IS : forall u w p, (w < n)%nat -> (In p (samples P u w) <-> exists k, (u <= k <= w)%nat /\ p = (FV (nth k v 0 * uv), FV (nth k i 0 * ui)))).
  { intros u w p W. rewrite (samples_in P u w p (FNaN, FNaN)) by lia. split; intros [k [K1 K2]]; exists k; (split; [assumption|]); [rewrite NTH in K2 by lia; auto|rewrite NTH by lia; auto]. }
  assert (FIN : forall Q st, (a <= st <= b)%nat -> take_one_pass (map fst P) (map snd P) = Ok (map fst Q, map snd Q) ->
     (forall p, In p Q <-> exists k, (k <= a \/ st <= k <= b)%nat /\ p = (FV (nth k v 0 * uv), FV (nth k i 0 * ui))) -> (2 <= length Q)%nat ->
     exists x y, load_iv s {| ncols := 2; rows := measured v i |} fv fi = Ok (x, y) /\ kept (fun k => (k <= a \/ st <= k <= b)%nat) v i uv ui x y).
  { intros Q st ST E HQ LQ. destruct (finite_clean s Q SO) as [[x y] C]; [|assumption|].
    - intros p Hp. apply HQ in Hp. destruct Hp as [k [_ ->]]. eauto.
    - exists x, y. split; [|now apply kept_pairs with s Q]. rewrite <- C.
      apply (load_clean s {| ncols := 2; rows := measured v i |} fv fi uv ui Q SO eq_refl HV HI); rewrite EP; [assumption|].
      intros p Hp. apply HQ in Hp. destruct Hp as [k [Hk ->]]. apply IP. exists k. split; [lia|reflexivity]. }
  destruct (one_pass P NEP NP) as [lo [hi [F1 [F2 H]]]].
  pose proof (first_min_unique _ _ _ F1 FM). pose proof (first_max_unique _ _ _ F2 FL). subst lo hi. rewrite LP in H.
  destruct H as [[E1 [E2 E]]|[[_ [E1 [E2 E]]]|[[LT _]|[LT [_ [st [Ek [HS E]]]]]]]]; [|lia|lia|].
  - destruct (FIN P 0%nat) as [x [y [H1 H2]]]; [lia|assumption| |lia|].
    + intros p. rewrite IP. split; intros [k [K1 K2]]; exists k; (split; [lia|assumption]).
    + exists x, y, 0%nat. split; [assumption|]. split; [lia|]. split; [|assumption]. intros j Hj. rewrite Rminus_diag_eq by reflexivity. rewrite Rabs_R0. apply Rabs_pos.
  - cbv zeta in E. destruct (FIN (rev (samples P 0 a) ++ samples P st b) st) as [x [y [H1 H2]]]; [lia|assumption| | |].
    + intros p. rewrite in_app_iff, <- in_rev, !IS by lia. split.
      * intros [[k [K1 K2]]|[k [K1 K2]]]; exists k; (split; [lia|assumption]).
      * intros [k [[K|K] K2]]; [left|right]; exists k; (split; [lia|assumption]).
    + rewrite app_length, rev_length, !samples_length by lia. lia.
    + exists x, y, st. split; [assumption|]. split; [assumption|]. split; [|assumption].
      intros j Hj. apply (closest v uv a b st UP); try lia; try assumption. fold n. rewrite <- FP. rewrite <- Ek. rewrite FP. rewrite nth_map_seq by lia. reflexivity.
Qed.

(** A single pass is kept as it is. *)
Lemma map_nth_pairs {A} (v i : list R) (g : R -> R -> A) : length i = length v -> map (fun k => g (nth k v 0) (nth k i 0)) (seq 0 (length v)) = map (fun p => g (fst p) (snd p)) (List.combine v i).
Proof.
  intros L. apply (list_ext _ _ (g 0 0)); [rewrite !map_length, seq_length, combine_length; lia|]. intros k K. rewrite map_length, seq_length in K.
  rewrite nth_map_seq by assumption. rewrite (nth_indep _ _ ((fun p => g (fst p) (snd p)) (0, 0))) by (rewrite map_length, combine_length; lia).
  rewrite (map_nth (fun p => g (fst p) (snd p))). rewrite combine_nth by now symmetry. reflexivity.
Qed.
Lemma rises_increasing v uv : 0 < uv -> rises v 0 (length v - 1) -> Spec_CleanData.increasing (map (fun k => FV (nth k v 0 * uv)) (seq 0 (length v))).
Proof.
  intros U R. set (n := length v) in *. assert (H : forall a m, (a + m <= n)%nat -> StronglySorted (fun a b => flt a b = true) (map (fun k => FV (nth k v 0 * uv)) (seq a m))).
  { intros a m. revert a. induction m as [|m IH]; intros a AM; cbn [seq map]; constructor; [apply IH; lia|]. rewrite Forall_forall. intros x Hx. apply in_map_iff in Hx. destruct Hx as [k [<- K]]. apply in_seq in K. apply flt_spec_v.
    assert (nth a v 0 < nth k v 0) by (apply R; lia). nra. }
  apply H. lia.
Qed.
Lemma load_rising s fv fi uv ui v i : sorting s -> volts fv = Some uv -> amperes fi = Some ui -> length i = length v -> (2 <= length v)%nat -> rises v 0 (length v - 1) ->
  load_iv s {| ncols := 2; rows := measured v i |} fv fi = Ok (map (fun a => FV (a * uv)) v, map (fun a => FV (a * ui)) i).
Proof.
  intros SO HV HI L N R. pose proof (volts_pos _ _ HV) as UP. set (n := length v) in *.
  set (P := map (fun k => (FV (nth k v 0 * uv), FV (nth k i 0 * ui))) (seq 0 n)).
  assert (EP : filter both_numbers (scaled_points uv ui (rows {| ncols := 2; rows := measured v i |})) = P) by apply sweep_pairs.
  assert (FP : map fst P = map (fun k => FV (nth k v 0 * uv)) (seq 0 n)) by (unfold P; rewrite map_map; reflexivity).
  assert (F1 : map fst P = map (fun a => FV (a * uv)) v). { rewrite FP. unfold n. transitivity (map (fun a => FV (a * uv)) (map (fun k => nth k v 0) (seq 0 (length v)))); [now rewrite map_map|]. now rewrite (map_nth_seq v 0). }
  assert (F2 : map snd P = map (fun a => FV (a * ui)) i). { unfold P. rewrite map_map. cbn [snd]. rewrite <- L. transitivity (map (fun a => FV (a * ui)) (map (fun k => nth k i 0) (seq 0 (length i)))); [now rewrite map_map|]. now rewrite (map_nth_seq i 0). }
  assert (LP : length P = n) by (unfold P; now rewrite map_length, seq_length).
  assert (MONO : forall x y, x < y -> x * uv < y * uv) by (intros; nra).
  assert (FM : first_min (map fst P) 0).
  { rewrite FP. apply (first_min_reals v 0 (fun x => x * uv)); [assumption|fold n; lia| |intros; lia]. fold n. intros j Hj. destruct (Nat.eq_dec j 0) as [->|]; [lra|]. left. apply R; lia. }
  assert (FL : first_max (map fst P) (n - 1)).
  { rewrite FP. apply (first_max_reals v (n - 1) (fun x => x * uv)); [assumption|fold n; lia| |].
    - fold n. intros j Hj. destruct (Nat.eq_dec j (n - 1)) as [->|]; [lra|]. left. apply R; lia.
    - intros j Hj. apply R; lia. }
  assert (NP : Forall number (map fst P)). { rewrite FP, Forall_forall. intros x Hx. apply in_map_iff in Hx. destruct Hx as [k [<- _]]. reflexivity. }
  assert (NEP : P <> []) by (intros E; rewrite E in LP; simpl in LP; lia).
  assert (ET : take_one_pass (map fst P) (map snd P) = Ok (map fst P, map snd P)).
  { destruct (one_pass P NEP NP) as [lo [hi [M1 [M2 H]]]]. pose proof (first_min_unique _ _ _ M1 FM). pose proof (first_max_unique _ _ _ M2 FL). subst lo hi. rewrite LP in H.
    destruct H as [[E1 [E2 E]]|[[_ [E1 [E2 E]]]|[[LT _]|[LT [NQ _]]]]]; [assumption|lia|lia|congruence]. }
  rewrite (load_clean s {| ncols := 2; rows := measured v i |} fv fi uv ui P SO eq_refl HV HI); [|rewrite EP; assumption|rewrite EP; apply incl_refl].
  rewrite <- F1, <- F2. apply clean_clean; [assumption|now rewrite !map_length|assumption| | |rewrite map_length; lia].
  - rewrite F2, Forall_forall. intros x Hx. apply in_map_iff in Hx. destruct Hx as [k [<- _]]. reflexivity.
  - rewrite FP. now apply rises_increasing.
Qed.
