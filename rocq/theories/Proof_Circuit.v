(** Proofs about EmbeddingCircuit. *)
From Coq Require Import List ZArith Bool Ascii String Reals Lia Lra.
From Coquelicot Require Import Complex.
From Verif Require Import Base Model_QtCurrent Model_Circuit Spec_Circuit.
Import ListNotations.
Open Scope R_scope.

Lemma Reqb_spec x y : reflect (x = y) (Reqb x y).
Proof. unfold Reqb. destruct (Req_EM_T x y); constructor; assumption. Qed.
Lemma Rltb_spec x y : reflect (x < y) (Rltb x y).
Proof. unfold Rltb. destruct (Rlt_dec x y); constructor; assumption. Qed.
Lemma Rleb_spec x y : reflect (x <= y) (Rleb x y).
Proof. unfold Rleb. destruct (Rle_dec x y); constructor; assumption. Qed.

(** ** Element writes *)

Lemma pyidx_names n k j : pyidx n k = Some j -> names n k j.
Proof. intros H. apply pyidx_some in H. unfold names. lia. Qed.

Lemma names_pyidx n k j : names n k j -> pyidx n k = Some j.
Proof.
  intros [H1 [H2|H2]].
  - rewrite pyidx_nonneg by lia. f_equal. lia.
  - rewrite pyidx_neg by lia. f_equal. lia.
Qed.

Lemma pyset_ok {A} (l l' : list A) k x : pyset l k x = Ok l' ->
  exists j, names (List.length l) k j /\ replaced l l' j x.
Proof.
  unfold pyset. destruct (pyidx (List.length l) k) as [j|] eqn:E; [|discriminate]. intros [= <-].
  exists j. apply pyidx_names in E. split; [exact E|]. destruct E as [E _]. repeat split.
  - apply list_set_length.
  - exact E.
  - rewrite nth_error_list_set, Nat.eqb_refl. apply Nat.ltb_lt in E. now rewrite E.
  - intros k' Hk. rewrite nth_error_list_set. apply Nat.eqb_neq in Hk. now rewrite Hk.
Qed.

Lemma pyset_err {A} (l : list A) k x e : pyset l k x = Err e -> e = IndexError.
Proof. unfold pyset. destruct (pyidx _ _); [discriminate|congruence]. Qed.

Lemma pyget_ok {A} (l : list A) k x : pyget l k = Ok x -> exists j, names (List.length l) k j /\ nth_error l j = Some x.
Proof.
  unfold pyget. destruct (pyidx _ _) as [j|] eqn:E; [|discriminate]. destruct (nth_error l j) as [y|] eqn:N; [|discriminate].
  intros [= <-]. exists j. split; [now apply pyidx_names|assumption].
Qed.

Lemma pyget_names {A} (l : list A) k j x : names (List.length l) k j -> nth_error l j = Some x -> pyget l k = Ok x.
Proof. intros H N. unfold pyget. rewrite (names_pyidx _ _ _ H), N. reflexivity. Qed.

Lemma map_length_list_set {A} (m : list (list A)) f r row : nth_error m f = Some row -> List.length r = List.length row ->
  List.map (@List.length A) (list_set m f r) = List.map (@List.length A) m.
Proof.
  revert f; induction m as [|x m IH]; intros [|f] H HL; simpl in *; try discriminate.
  - injection H as ->. now rewrite HL.
  - f_equal. now apply IH.
Qed.

Lemma set2_ok {A} (m m' : list (list A)) f p x : set2 m f p x = Ok m' ->
  exists j k row, names (List.length m) f j /\ nth_error m j = Some row /\ names (List.length row) p k /\ replaced2 m m' j k x.
Proof.
  unfold set2. intros H. apply bind_ok in H as [row [H1 H]]. apply bind_ok in H as [row' [H2 H3]].
  apply pyget_ok in H1 as [j [Hj Nj]]. apply pyset_ok in H2 as [k [Hk Rk]].
  unfold pyset in H3. rewrite (names_pyidx _ _ _ Hj) in H3. injection H3 as <-.
  exists j, k, row. split; [assumption|]. split; [assumption|]. split; [assumption|].
  destruct Rk as [L [Lk [Nk Ok]]]. assert (Lj : (j < List.length m)%nat) by apply Hj. repeat split.
  - now apply map_length_list_set with (row := row).
  - unfold cell. rewrite nth_error_list_set, Nat.eqb_refl. apply Nat.ltb_lt in Lj. now rewrite Lj.
  - intros g q Hgq. unfold cell. rewrite nth_error_list_set. destruct (Nat.eqb_spec g j) as [->|Hg]; [|reflexivity].
    apply Nat.ltb_lt in Lj. rewrite Lj, Nj. apply Ok. congruence.
Qed.

Lemma set2_err {A} (m : list (list A)) f p x e : set2 m f p x = Err e -> e = IndexError.
Proof.
  unfold set2, pyget, pyset. intros H. destruct (pyidx (List.length m) f); [|simpl in H; congruence].
  destruct (nth_error m n) as [row|]; [|simpl in H; congruence]. simpl in H. destruct (pyidx (List.length row) p); simpl in H; congruence.
Qed.

Lemma get2_ok {A} (m : list (list A)) f p x : get2 m f p = Ok x ->
  exists j k row, names (List.length m) f j /\ nth_error m j = Some row /\ names (List.length row) p k /\ nth_error row k = Some x.
Proof.
  unfold get2. intros H. apply bind_ok in H as [row [H1 H2]]. apply pyget_ok in H1 as [j [Hj Nj]].
  apply pyget_ok in H2 as [k [Hk Nk]]. exists j, k, row. auto.
Qed.

Lemma get2_cell {A} (m : list (list A)) f p j k row x : names (List.length m) f j -> nth_error m j = Some row ->
  names (List.length row) p k -> nth_error row k = Some x -> get2 m f p = Ok x.
Proof.
  intros H1 H2 H3 H4. unfold get2. rewrite (pyget_names _ _ _ _ H1 H2). cbn [bind]. now apply pyget_names with (j := k).
Qed.

Lemma names_lt n k j : names n k j -> (j < n)%nat. Proof. intros H; apply H. Qed.
Lemma names_fun n k j j' : names n k j -> names n k j' -> j = j'.
Proof. unfold names. lia. Qed.

(** ** Writers change one entry *)

Lemma same_refl a b d g h i c : same_but a b d g h i c c.
Proof. unfold same_but. repeat split; auto. Qed.

Lemma put_freq_ok c c' f v : put_freq c f v = Ok c' ->
  w_freq c = true /\ same_but true false false false false false c c' /\
  exists j, names (List.length (c_freq c)) f j /\ replaced (c_freq c) (c_freq c') j v.
Proof.
  unfold put_freq. destruct (w_freq c) eqn:W; [|discriminate]. cbn [guard bind]. intros H. apply bind_ok in H as [l [H1 H2]].
  injection H2 as <-. split; [reflexivity|]. split; [unfold same_but, with_freq; simpl; repeat split; auto|].
  apply pyset_ok in H1. exact H1.
Qed.

Lemma put_vt_ok c c' f p v : put_vt c f p v = Ok c' ->
  w_vt c = true /\ same_but false true false false false false c c' /\
  exists j k row, names (List.length (c_vt c)) f j /\ nth_error (c_vt c) j = Some row /\ names (List.length row) p k /\
    replaced2 (c_vt c) (c_vt c') j k v.
Proof.
  unfold put_vt. destruct (w_vt c) eqn:W; [|discriminate]. cbn [guard bind]. intros H. apply bind_ok in H as [l [H1 H2]].
  injection H2 as <-. split; [reflexivity|]. split; [unfold same_but, with_vt; simpl; repeat split; auto|].
  apply set2_ok in H1. exact H1.
Qed.

(** Opening the definitions of the setters. *)
Lemma done_cases c r c' q : done c r = (c', q) ->
  (exists x, r = Ok x /\ c' = x /\ q = Ok tt) \/ (exists er, r = Err er /\ c' = c /\ q = Err er).
Proof. destruct r; simpl; intros [= <- <-]; [left|right]; eauto. Qed.

Definition freq_of (c : circ) (value : R) (units : string) : option R :=
  match c_fgap c with None => None | Some fgap =>
  let vd x := match c_vgap c with Some v => if Reqb v 0 then None else Some (x / v) | None => None end in
  let fd x := if Reqb fgap 0 then None else Some (x / fgap) in
  let u := lower units in
  if (u =? "hz")%string then fd value
  else if (u =? "mhz")%string then fd (value * 10 ^ 6)
  else if (u =? "ghz")%string then fd (value * 10 ^ 9)
  else if (u =? "thz")%string then fd (value * 10 ^ 12)
  else if (u =? "v")%string then vd value
  else if (u =? "mv")%string then vd (value * / 10 ^ 3)
  else if (u =? "norm")%string then Some value
  else None end.

Lemma set_freq_eq c value f units : 
  (exists x, freq_of c value units = Some x /\ set_freq c value f units = done c (put_freq c f x)) \/
  (exists er, freq_of c value units = None /\ set_freq c value f units = (c, Err er)).
Proof.
  unfold set_freq, freq_of. destruct (c_fgap c) as [fg|]; [|right; eexists; split; reflexivity]. cbv zeta. unfold fdiv.
  repeat match goal with |- context [if ?b then _ else _] => destruct b end;
  repeat match goal with |- context [match c_vgap c with _ => _ end] => destruct (c_vgap c) end;
  repeat match goal with |- context [if ?b then _ else _] => destruct b end;
  ((left; eexists; split; reflexivity) || (right; eexists; split; reflexivity)).
Qed.

(** ** C22 *)
Lemma set_freq_touches c value f units c' r : set_freq c value f units = (c', r) ->
  ((exists er, r = Err er) /\ c' = c) \/
  (r = Ok tt /\ same_but true false false false false false c c' /\
   exists j x, names (List.length (c_freq c)) f j /\ replaced (c_freq c) (c_freq c') j x).
Proof.
  destruct (set_freq_eq c value f units) as [[x [_ E]]|[er [_ E]]]; rewrite E; intros H.
  - apply done_cases in H as [[y [H1 [-> ->]]]|[er [H1 [-> ->]]]]; [right|left; eauto].
    apply put_freq_ok in H1 as [_ [S [j [N Rp]]]]. eauto 7.
  - injection H as <- <-. left. eauto.
Qed.

Lemma set_power_touches c power f p units c' r : set_available_power c power f p units = (c', r) ->
  ((exists er, r = Err er) /\ c' = c) \/
  (r = Ok tt /\ same_but false true false false false false c c' /\
   exists j k row x, names (List.length (c_vt c)) f j /\ nth_error (c_vt c) j = Some row /\ names (List.length row) p k /\
     replaced2 (c_vt c) (c_vt c') j k x).
Proof.
  unfold set_available_power. intros H. apply done_cases in H as [[y [H1 [-> ->]]]|[er [H1 [-> ->]]]]; [right|left; eauto].
  destruct (c_vgap c); [|discriminate]. destruct (c_rn c); [|discriminate]. apply bind_ok in H1 as [zt [_ H1]].
  destruct (Reqb (Cmod zt) 0); [discriminate|]. apply bind_ok in H1 as [w [_ H1]].
  apply put_vt_ok in H1 as [_ [S [j [k [row [N1 [N2 [N3 Rp]]]]]]]]. split; [reflexivity|]. split; [exact S|]. eauto 10.
Qed.

Lemma set_alpha_touches c alpha f p zj c' r : set_alpha c alpha f p zj = (c', r) ->
  ((exists er, r = Err er) /\ c' = c) \/
  (r = Ok tt /\ same_but false true false false false false c c' /\
   exists j k row x, names (List.length (c_vt c)) f j /\ nth_error (c_vt c) j = Some row /\ names (List.length row) p k /\
     replaced2 (c_vt c) (c_vt c') j k x).
Proof.
  unfold set_alpha. intros H. apply done_cases in H as [[y [H1 [-> ->]]]|[er [H1 [-> ->]]]]; [right|left; eauto].
  apply bind_ok in H1 as [zt [_ H1]].
  destruct (Reqb (Cmod zt) 0); [discriminate|]. apply bind_ok in H1 as [w [_ H1]]. destruct (Reqb w 0); [discriminate|].
  apply put_vt_ok in H1 as [_ [S [j [k [row [N1 [N2 [N3 Rp]]]]]]]]. split; [reflexivity|]. split; [exact S|]. eauto 10.
Qed.

Lemma set_name_touches c name f p c' r : set_name c name f p = (c', r) ->
  ((exists er, r = Err er) /\ c' = c) \/
  (r = Ok tt /\ same_but false false false false true false c c' /\
   exists j k row, names (List.length (c_comment c)) f j /\ nth_error (c_comment c) j = Some row /\ names (List.length row) p k /\
     replaced2 (c_comment c) (c_comment c') j k name).
Proof.
  unfold set_name. intros H. apply done_cases in H as [[y [H1 [-> ->]]]|[er [H1 [-> ->]]]]; [right|left; eauto].
  apply bind_ok in H1 as [l [H1 H2]]. injection H2 as <-. split; [reflexivity|].
  split; [unfold same_but, with_comment; simpl; repeat split; auto|]. apply set2_ok in H1. exact H1.
Qed.

(** ** Shapes are kept by every operation *)
Lemma same_lengths {A} (m m' : list (list A)) a b :
  List.map (@List.length A) m' = List.map (@List.length A) m -> rectangular m a b -> rectangular m' a b.
Proof.
  intros E [H1 H2]. split.
  - rewrite <- (map_length (@List.length A)), E, map_length. exact H1.
  - intros row Hr. apply (in_map (@List.length A)) in Hr. rewrite E in Hr. apply in_map_iff in Hr as [r [<- Hr]]. now apply H2.
Qed.

Lemma exec_shape c o c' r : exec c o = (c', r) -> well_shaped c ->
  well_shaped c' /\ c_num_f c' = c_num_f c /\ c_num_p c' = c_num_p c /\ c_npts c' = c_npts c.
Proof.
  intros H W.
  assert (K : forall x, done c x = (c', r) -> (forall y, x = Ok y -> 
     (exists l, y = with_freq c l /\ List.length l = List.length (c_freq c)) \/
     (exists l, y = with_vt c l /\ List.map (@List.length _) l = List.map (@List.length _) (c_vt c)) \/
     (exists l, y = with_zt c l /\ List.map (@List.length _) l = List.map (@List.length _) (c_zt c)) \/
     (exists l, y = with_vb c l /\ List.length l = List.length (c_vb c)) \/
     (exists l, y = with_comment c l /\ List.map (@List.length _) l = List.map (@List.length _) (c_comment c))) ->
     well_shaped c' /\ c_num_f c' = c_num_f c /\ c_num_p c' = c_num_p c /\ c_npts c' = c_npts c).
  { intros x D K. apply done_cases in D as [[y [E [-> _]]]|[er [_ [-> _]]]]; [|auto].
    destruct W as [W1 [W2 [W3 [W4 [W5 W6]]]]].
    destruct (K y E) as [[l [-> L]]|[[l [-> L]]|[[l [-> L]]|[[l [-> L]]|[l [-> L]]]]]];
      unfold well_shaped; simpl; repeat split; auto; try congruence; try (eapply same_lengths; eassumption || (apply W3) || (apply W4) || (apply W5)).
    all: try (eapply (same_lengths _ _ _ _ L); eassumption). all: try apply W3; try apply W4; try apply W5. }
  assert (F : forall f v y, put_freq c f v = Ok y -> exists l, y = with_freq c l /\ List.length l = List.length (c_freq c)).
  { intros f v y E. unfold put_freq in E. apply bind_ok in E as [_ [_ E]]. apply bind_ok in E as [l [E1 E]].
    injection E as <-. exists l. split; [reflexivity|]. apply pyset_ok in E1 as [j [_ Rp]]. apply Rp. }
  assert (V : forall f p v y, put_vt c f p v = Ok y -> exists l, y = with_vt c l /\ List.map (@List.length _) l = List.map (@List.length _) (c_vt c)).
  { intros f p v y E. unfold put_vt in E. apply bind_ok in E as [_ [_ E]]. apply bind_ok in E as [l [E1 E]].
    injection E as <-. exists l. split; [reflexivity|]. apply set2_ok in E1 as [j [k [row [_ [_ [_ Rp]]]]]]. apply Rp. }
  destruct o; simpl in H.
  - destruct (set_freq_eq c value f units) as [[x [_ E]]|[er [_ E]]]; rewrite E in H.
    + apply (K _ H). intros y Hy. left. eapply F; eassumption.
    + injection H as <- <-. auto.
  - unfold set_available_power in H. apply (K _ H). intros y Hy. right; left.
    destruct (c_vgap c); [|discriminate]. destruct (c_rn c); [|discriminate]. apply bind_ok in Hy as [zt [_ Hy]].
    destruct (Reqb (Cmod zt) 0); [discriminate|]. apply bind_ok in Hy as [w [_ Hy]]. eapply V; eassumption.
  - unfold set_alpha in H. apply (K _ H). intros y Hy. right; left. apply bind_ok in Hy as [zt [_ Hy]].
    destruct (Reqb (Cmod zt) 0); [discriminate|]. apply bind_ok in Hy as [w [_ Hy]]. destruct (Reqb w 0); [discriminate|]. eapply V; eassumption.
  - apply (K _ H). intros y Hy. do 4 right. apply bind_ok in Hy as [l [E1 E]]. injection E as <-. exists l. split; [reflexivity|].
    apply set2_ok in E1 as [j [k [row [_ [_ [_ Rp]]]]]]. apply Rp.
  - apply (K _ H). intros y Hy. left. eapply F; eassumption.
  - apply (K _ H). intros y Hy. right; left. eapply V; eassumption.
  - apply (K _ H). intros y Hy. right; right; left. unfold put_zt in Hy. apply bind_ok in Hy as [_ [_ E]]. apply bind_ok in E as [l [E1 E]].
    injection E as <-. exists l. split; [reflexivity|]. apply set2_ok in E1 as [j [k [row [_ [_ [_ Rp]]]]]]. apply Rp.
  - apply (K _ H). intros y Hy. right; right; right; left. unfold put_vb in Hy. apply bind_ok in Hy as [_ [_ E]]. apply bind_ok in E as [l [E1 E]].
    injection E as <-. exists l. split; [reflexivity|]. apply pyset_ok in E1 as [j [_ Rp]]. apply Rp.
  - injection H as <- <-. unfold lock, with_flags, well_shaped in *. simpl. auto.
  - injection H as <- <-. unfold unlock, with_flags, well_shaped in *. simpl. auto.
Qed.

(** ** C25: locking *)
Lemma put_freq_locked c f v : w_freq c = false -> put_freq c f v = Err ValueError.
Proof. intros H. unfold put_freq. now rewrite H. Qed.
Lemma put_vt_locked c f p v : w_vt c = false -> put_vt c f p v = Err ValueError.
Proof. intros H. unfold put_vt. now rewrite H. Qed.

Lemma exec_locked c o : locked c -> is_unlock o = false ->
  (writes_array o = true -> exists er, exec c o = (c, Err er)) /\
  (writes_array o = false -> exists c' r, exec c o = (c', r) /\ locked c' /\ same_but false false false false true false c c').
Proof.
  intros [L1 [L2 [L3 L4]]] U. split; destruct o; try discriminate; intros _; simpl exec.
  - destruct (set_freq_eq c value f units) as [[x [_ E]]|[er [_ E]]]; rewrite E; [|eauto].
    rewrite put_freq_locked by assumption. simpl. eauto.
  - unfold set_available_power. destruct (c_vgap c); simpl; [|eauto]. destruct (c_rn c); simpl; [|eauto].
    destruct (get2 (c_zt c) f p); simpl; [|eauto]. destruct (Reqb _ _); simpl; [eauto|]. destruct (to_watts _ _); simpl; [|eauto].
    rewrite put_vt_locked by assumption. simpl. eauto.
  - unfold set_alpha. destruct (get2 (c_zt c) f p); simpl; [|eauto]. destruct (Reqb _ _); simpl; [eauto|].
    destruct (pyget _ _); simpl; [|eauto]. destruct (Reqb _ _); simpl; [eauto|]. rewrite put_vt_locked by assumption. simpl. eauto.
  - rewrite put_freq_locked by assumption. simpl; eauto.
  - rewrite put_vt_locked by assumption. simpl; eauto.
  - unfold put_zt. rewrite L3. simpl; eauto.
  - unfold put_vb. rewrite L4. simpl; eauto.
  - destruct (set_name c name f p) as [c' r] eqn:E. exists c', r. split; [reflexivity|].
    apply set_name_touches in E as [[_ ->]|[_ [S _]]]; [split; [repeat split; assumption|apply same_refl]|].
    split; [|exact S]. destruct S as (_&_&_&_&_&_&_&_&_&_&_&_&_&_&[S|S]); [discriminate|].
    destruct S as [S1 [S2 [S3 S4]]]. unfold locked. now rewrite S1, S2, S3, S4.
  - exists (lock c), (Ok tt). split; [reflexivity|]. unfold lock, with_flags, locked, same_but; simpl. rewrite L1, L2, L3, L4. repeat split; auto.
Qed.

Lemma same_but_trans_comment c c' c'' : same_but false false false false true false c c' -> same_but false false false false true false c' c'' ->
  same_but false false false false true false c c''.
Proof.
  unfold same_but. intros (A1&A2&A3&A4&A5&A6&A7&A8&A9&A10&A11&A12&A13&A14&A15) (B1&B2&B3&B4&B5&B6&B7&B8&B9&B10&B11&B12&B13&B14&B15).
  repeat split; try congruence; auto; right;
   repeat match goal with H : false = true \/ _ |- _ => destruct H as [H|H]; [discriminate|] end; intuition congruence.
Qed.

Lemma run_locked os : forall c, locked c -> existsb is_unlock os = false ->
  locked (fst (run c os)) /\ same_but false false false false true false c (fst (run c os)) /\
  Forall2 (fun o r => writes_array o = true -> exists er, r = Err er) os (snd (run c os)).
Proof.
  induction os as [|o os IH]; intros c L U; simpl.
  - split; [assumption|]. split; [apply same_refl|constructor].
  - simpl in U. apply orb_false_iff in U as [U1 U2]. destruct (exec_locked c o L U1) as [H1 H2].
    destruct (writes_array o) eqn:W.
    + destruct (H1 eq_refl) as [er E]. rewrite E. destruct (IH c L U2) as [I1 [I2 I3]]. destruct (run c os) as [c'' rs]. simpl in *.
      split; [assumption|]. split; [assumption|]. constructor; [eauto|assumption].
    + destruct (H2 eq_refl) as [c' [r [E [L' S]]]]. rewrite E. destruct (IH c' L' U2) as [I1 [I2 I3]]. destruct (run c' os) as [c'' rs]. simpl in *.
      split; [assumption|]. split; [eapply same_but_trans_comment; eassumption|]. constructor; [congruence|assumption].
Qed.

(** After unlocking, the object is as if only the name changes had been made. *)
Lemma set_name_flags c s f p a b d g :
  fst (set_name (with_flags c a b d g) s f p) = with_flags (fst (set_name c s f p)) a b d g.
Proof. unfold set_name. simpl. destruct (set2 (c_comment c) f p s); reflexivity. Qed.

Lemma set_name_keeps_flags c s f p : forall c', c' = fst (set_name c s f p) ->
  w_freq c' = w_freq c /\ w_vt c' = w_vt c /\ w_zt c' = w_zt c /\ w_vb c' = w_vb c.
Proof. intros c' ->. unfold set_name. destruct (set2 (c_comment c) f p s); simpl; auto. Qed.

Lemma run_app c os1 os2 : fst (run c (os1 ++ os2)) = fst (run (fst (run c os1)) os2).
Proof.
  revert c; induction os1 as [|o os IH]; intros c; simpl; [reflexivity|].
  destruct (exec c o) as [c' r]. specialize (IH c'). destruct (run c' (os ++ os2)), (run c' os); simpl in *. exact IH.
Qed.

Lemma run_cons_fst c o os : fst (run c (o :: os)) = fst (run (fst (exec c o)) os).
Proof. simpl. destruct (exec c o) as [c' r]. simpl. destruct (run c' os); reflexivity. Qed.

Lemma lock_with c : lock c = with_flags c false false false false. Proof. reflexivity. Qed.

Lemma run_lock_names os : existsb is_unlock os = false -> forall c,
  fst (run (lock c) os) = lock (fst (run c (filter is_set_name os))).
Proof.
  induction os as [|o os IH]; intros U c; [reflexivity|]. simpl in U. apply orb_false_iff in U as [U1 U2].
  rewrite run_cons_fst. assert (Lk : locked (lock c)) by (repeat split).
  destruct (writes_array o) eqn:W.
  - destruct (exec_locked (lock c) o Lk U1) as [H1 _]. destruct (H1 W) as [er E]. rewrite E. simpl fst.
    rewrite IH by assumption. destruct o; try discriminate; reflexivity.
  - destruct o; try discriminate.
    + cbn [filter is_set_name]. rewrite run_cons_fst. cbn [exec]. rewrite lock_with, set_name_flags, <- lock_with. now apply IH.
    + cbn [exec fst filter is_set_name]. change (lock (lock c)) with (lock c). now apply IH.
Qed.

Lemma lock_unlock_as_if c os os' : writeable c -> existsb is_unlock os = false ->
  fst (run c (Lock :: os ++ Unlock :: os')) = fst (run c (filter is_set_name os ++ os')).
Proof.
  intros W U. rewrite run_cons_fst, run_app, run_cons_fst. simpl exec. simpl fst.
  rewrite run_lock_names by assumption. rewrite run_app. f_equal. f_equal.
  remember (filter is_set_name os) as ns eqn:En. assert (K : Forall (fun o => is_set_name o = true) ns).
  { subst. apply Forall_forall. intros o Ho. now apply filter_In in Ho. }
  clear En U os os'. revert c W. induction K as [|o ns Ho K IH]; intros c W.
  - simpl. destruct c. destruct W as [W1 [W2 [W3 W4]]]. simpl in *. subst. reflexivity.
  - rewrite !run_cons_fst. apply IH. destruct o; try discriminate. simpl exec.
    destruct (set_name_keeps_flags c name f p _ eq_refl) as [S1 [S2 [S3 S4]]]. unfold writeable in *. now rewrite S1, S2, S3, S4.
Qed.
