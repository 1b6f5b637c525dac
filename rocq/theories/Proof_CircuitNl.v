(** Reading a saved circuit does not need the last newline of the file. *)
From Coq Require Import List ZArith Bool Ascii String Reals Lia Lra.
From Coquelicot Require Import Complex.
From Verif Require Import Base Round Model_QtCurrent Model_Circuit Model_CircuitFile Spec_Circuit Proof_Circuit Proof_Circuit2 Proof_CircuitFile.
Import ListNotations.
Open Scope Z_scope.

(** ** Only the words of the lines matter *)
Definition same_words (a b : list text) : Prop := Forall2 (fun x y => split x = split y) a b.

Lemma split_nl l : split (l ++ [nl]) = split l.
Proof.
  unfold split. assert (H : forall cur, split_acc cur (l ++ [nl]) = split_acc cur l); [|apply H]. induction l as [|a l IH]; intros cur; cbn [app split_acc].
  - change (is_space nl) with true. cbv iota. destruct cur; reflexivity.
  - destruct (is_space a); [destruct cur; [apply IH|f_equal; apply IH]|apply IH].
Qed.

Lemma same_refl l : same_words l l.
Proof. induction l; constructor; auto. Qed.

Lemma same_length a b : same_words a b -> List.length a = List.length b.
Proof. induction 1; cbn [List.length]; congruence. Qed.

Lemma pyget_words data data' k : same_words data data' ->
  (exists er, pyget data k = Err er /\ pyget data' k = Err er) \/ (exists a b, pyget data k = Ok a /\ pyget data' k = Ok b /\ split a = split b).
Proof.
  intros H. pose proof (same_length _ _ H) as L. unfold pyget. rewrite <- L.
  destruct (pyidx (List.length data) k) as [n|er]; [|left; eauto]. cbn [bind].
  clear k L. revert n. induction H as [|x y l l' E H IH]; intros [|n]; cbn [nth_error]; eauto 8.
  all: try (left; eauto; fail).
Qed.

Lemma read_step_words data data' c i l l' : same_words data data' -> split l = split l' -> read_step data c i l = read_step data' c i l'.
Proof.
  intros H E. unfold read_step. rewrite E. destruct (pyget (split l') 0) as [w0|]; [|reflexivity]. cbn [bind].
  destruct (pyget w0 0) as [a|]; [|reflexivity]. cbn [bind]. destruct (Ascii.eqb a "f"); [|reflexivity].
  destruct (search_int w0); [|reflexivity]. cbn [bind]. destruct (pyget (split l') 1) as [w1|]; [|reflexivity]. cbn [bind].
  destruct (search_int w1); [|reflexivity]. cbn [bind]. destruct (pyget (split l') 4) as [w4|]; [|reflexivity]. cbn [bind].
  destruct (parse_float w4); [|reflexivity]. cbn [bind].
  destruct (pyget_words data data' (Z.of_nat i + 1) H) as [(er&->&->)|(xx1&yy1&->&->&EE)]; [reflexivity|]. cbn [bind]. rewrite EE; clear EE.
  destruct (pyget (split yy1) 2) as [v|]; [|reflexivity]. cbn [bind]. destruct (parse_cell v); [|reflexivity]. cbn [bind].
  destruct (pyget_words data data' (Z.of_nat i + 2) H) as [(er&->&->)|(xx2&yy2&->&->&EE)]; [reflexivity|]. cbn [bind]. now rewrite EE.
Qed.

Lemma loop_words data data' : same_words data data' -> forall l l' n c, same_words l l' ->
  foreach (List.combine (seq n (List.length l)) l) (fun il c => read_step data c (fst il) (snd il)) c =
  foreach (List.combine (seq n (List.length l')) l') (fun il c => read_step data' c (fst il) (snd il)) c.
Proof.
  intros H l l' n c Hl. revert n c. induction Hl as [|x y l l' E Hl IH]; intros n c; [reflexivity|].
  cbn [List.length seq List.combine foreach fst snd]. rewrite (read_step_words data data' c n x y H E).
  destruct (read_step data' c n y); [|reflexivity]. cbn [bind]. apply IH.
Qed.

Lemma skip_words l l' k : same_words l l' -> same_words (skipn k l) (skipn k l').
Proof. intros H. revert k. induction H; intros [|k]; cbn [skipn]; try constructor; auto. Qed.
Lemma firstn_words l l' k : same_words l l' -> same_words (firstn k l) (firstn k l').
Proof. intros H. revert k. induction H; intros [|k]; cbn [firstn]; constructor; auto. apply IHForall2. Qed.

Lemma read_words h e t t' : same_words (readlines t) (readlines t') -> read_circuit h e t = read_circuit h e t'.
Proof.
  intros H. unfold read_circuit.
  destruct (pyget_words _ _ 1 H) as [(er&->&->)|(xx1&yy1&->&->&EE)]; [reflexivity|]. cbn [bind]. rewrite EE; clear EE.
  destruct (pyget (split yy1) (-1)) as [w|]; [|reflexivity]. cbn [bind]. destruct (parse_int w) as [nf|]; [|reflexivity]. cbn [bind].
  destruct (pyget_words _ _ 2 H) as [(er&->&->)|(xx2&yy2&->&->&EE)]; [reflexivity|]. cbn [bind]. rewrite EE; clear EE.
  destruct (pyget (split yy2) (-1)) as [w'|]; [|reflexivity]. cbn [bind]. destruct (parse_int w') as [np|]; [|reflexivity]. cbn [bind].
  destruct (init _ _ _ _ _ _ _ _ _ _ _) as [c0|]; [|reflexivity]. cbn [bind].
  assert (D : same_words (pyslice (readlines t) (Some 3) None) (pyslice (readlines t') (Some 3) None)).
  { unfold pyslice. rewrite (same_length _ _ H). apply firstn_words, skip_words, H. }
  apply loop_words; exact D.
Qed.

(** ** Dropping the last newline *)
Lemma readlines_partial cur l : no_nl l -> readlines_acc cur l = match rev cur ++ l with [] => [] | _ => [rev cur ++ l] end.
Proof.
  revert cur. induction l as [|a l IH]; intros cur H; cbn [readlines_acc].
  - rewrite app_nil_r. destruct cur as [|b cur]; [reflexivity|]. destruct (rev (b :: cur)) eqn:E; [|reflexivity].
    apply (f_equal (@List.length _)) in E. rewrite rev_length in E. discriminate.
  - unfold no_nl in H. cbn [forallb] in H. apply andb_true_iff in H as [H1 H2]. apply negb_true_iff in H1. rewrite H1, IH by exact H2.
    cbn [rev]. rewrite <- app_assoc. reflexivity.
Qed.

Lemma readlines_open ls l : Forall (fun x => exists l, x = l ++ [nl] /\ no_nl l) ls -> no_nl l -> l <> [] ->
  readlines (List.concat ls ++ l) = ls ++ [l].
Proof.
  intros H Hl Hn. induction ls as [|x ls IH].
  - cbn [List.concat app]. unfold readlines. rewrite readlines_partial by exact Hl. cbn [rev app]. now destruct l.
  - inversion H as [|? ? [y [-> Hy]] H']; subst. cbn [List.concat app]. unfold readlines. rewrite <- !app_assoc. cbn [app].
    rewrite readlines_acc_line by exact Hy. cbn [rev app]. f_equal. now apply IH.
Qed.

Lemma drop_last_nl h e ls : ls <> [] -> Forall (fun x => exists l, x = l ++ [nl] /\ no_nl l) ls -> Forall (fun x => x <> [nl]) ls ->
  exists t', List.concat ls = t' ++ [nl] /\ read_circuit h e t' = read_circuit h e (List.concat ls).
Proof.
  intros Hne H Hx. destruct (exists_last Hne) as [ls' [x ->]]. apply Forall_app in H as [H1 H2], Hx as [_ Hx].
  inversion H2 as [|? ? [l [-> Hl]] _]; subst. inversion Hx as [|? ? Hx1 _]; subst.
  assert (Hl0 : l <> []) by (intros ->; now apply Hx1).
  exists (List.concat ls' ++ l). rewrite concat_app. cbn [List.concat]. rewrite app_nil_r. split; [now rewrite app_assoc|].
  apply read_words. rewrite readlines_open by assumption.
  assert (E : readlines (List.concat ls' ++ l ++ [nl]) = ls' ++ [l ++ [nl]]).
  { rewrite <- (readlines_concat (ls' ++ [l ++ [nl]])).
    - rewrite concat_app. cbn [List.concat]. now rewrite app_nil_r.
    - apply Forall_app. split; [exact H1|]. constructor; [|constructor]. exists l. auto. }
  rewrite E. apply Forall2_app; [apply same_refl|]. constructor; [|constructor]. symmetry. apply split_nl.
Qed.

Lemma last_newline h e c t : well_shaped c -> (1 <= c_num_f c <= 4)%nat -> (1 <= c_num_p c)%nat -> save_info c = Ok t ->
  exists t', t = t' ++ [nl] /\ read_circuit h e t' = read_circuit h e t.
Proof.
  intros W _ _ Ht. pose proof (save_info_text _ _ _ _ _ c (holds_any c W)) as E. rewrite E in Ht. apply (f_equal (fun r => match r with Ok x => x | Err _ => t end)) in Ht.
  cbv beta iota in Ht. rewrite <- Ht. apply drop_last_nl.
  - discriminate.
  - apply Forall_app. split.
    + assert (Dn : forall n : nat, no_nl (digits (Z.of_nat n))) by (intros; apply word_no_nl, word_digits; lia).
      unfold header. repeat constructor.
      * eexists. split; [reflexivity|reflexivity].
      * eexists. split; [rewrite app_comm_cons, app_assoc; reflexivity|]. apply no_nl_app; [reflexivity|apply Dn].
      * eexists. split; [rewrite app_comm_cons, app_assoc; reflexivity|]. apply no_nl_app; [reflexivity|apply Dn].
    + apply Forall_flat_map. apply Forall_forall. intros fp _. unfold cell_lines. repeat constructor; [apply line_ok1|apply line_ok2|apply line_ok3].
  - apply Forall_app. split.
    + unfold header. repeat constructor; discriminate.
    + apply Forall_flat_map. apply Forall_forall. intros fp _. unfold cell_lines. repeat constructor; discriminate.
Qed.
