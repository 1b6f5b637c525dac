(** What a call of harmonic_balance or check_hb_error establishes. *)
From Coq Require Import List ZArith Lia Bool Arith Reals Lra String.
From Coquelicot Require Import Complex.
From Verif Require Import Base Sums Round Model_QtCurrent Spec_QtCurrent Spec_QtApi Proof_QtCurrent Proof_QtCurrent2 Proof_QtSym
  Proof_QtApi Proof_QtApi2 Model_Circuit Proof_Circuit Model_HB Spec_HB Proof_HB Proof_HB2 Proof_HB3.
Import ListNotations.
Open Scope C_scope.

Section Call.
Variable J : nat -> R -> R.
Variable inv : nat -> (nat -> nat -> R) -> option (nat -> nat -> R).
Variables (c : hcct) (resp : R -> C) (num_b : numb) (max_it : Z) (stop : R) (vj0 : option arr3) (damp : R) (zj : C).
Notation q := (h_q c).
Notation call mode := (harmonic_balance J inv c resp num_b max_it stop vj0 damp mode zj).
Notation residual' := (residual_at J (clamped c) resp num_b).
Notation undef := (undefined J (clamped c) resp num_b).
Notation after n := (corrections J (clamped c) resp num_b damp n (start c vj0 zj)).

Definition target_last (v : arr3) : Prop := forall i, (i < q_npts q)%nat ->
  ~ undef v (q_num_f q) (q_num_p q) i /\
  (Cmod (residual' v (q_num_f q) (q_num_p q) i) <= stop * Cmod (v (q_num_f q) (q_num_p q) i))%R.
Definition all_defined (v : arr3) : Prop := everywhere q (fun f p i => ~ undef v f p i).
Definition mask_for (mask : nat -> bool) (v : arr3) : Prop :=
  forall i, (i < q_npts q)%nat -> mask i = true <-> met J c resp num_b stop v i.

Definition how_ended (n : nat) (v : arr3) (o : loop_out) : Prop :=
  match l_why o with
  | Converged => l_iter o = Z.of_nat n /\ (Z.of_nat n <= max_it)%Z /\ target_last v /\ (all_defined v -> balanced J (clamped c) resp num_b stop v) /\
      exists mask, l_mask o = Some mask /\ mask_for mask v
  | HitLimit => l_iter o = Z.of_nat n /\ Z.of_nat n = max_it /\
      ~ ((0 <= stop)%R /\ everywhere q (fun f p i => v f p i <> RtoC 0) /\ balanced J (clamped c) resp num_b stop v) /\
      exists mask, l_mask o = Some mask /\ mask_for mask v
  | RanOut => Z.of_nat n = (max_it + 1)%Z /\ l_iter o = max_it /\ exists u, after (n - 1)%nat u /\ corrected J (clamped c) resp num_b damp u v /\
      (exists i, (i < q_npts q)%nat /\ undef u (q_num_f q) (q_num_p q) i) /\
      exists mask, l_mask o = Some mask /\ mask_for mask u
  end.

Lemma hb_run mode x : args_ok q num_b -> (1 <= q_npts q)%nat -> some_impedance c -> (0 <= max_it)%Z -> inverts inv ->
  r_ret (call mode) = Ok x ->
  r_cct (call mode) = clamped c /\
  exists n v o, after n v /\ ret_of mode max_it v o = Ok x /\ how_ended n v o.
Proof.
  intros Ha Hp Hz Hm [Hinv _] H. apply hb_ok in H; [|assumption]. destruct H as [Hc [Hw [g [rm [v [o [Hg [ER [HL Hx]]]]]]]]].
  split; [assumption|]. unfold hb_loop in HL. apply run_ended in HL; [|assumption]. destruct HL as [n [Hs He]].
  assert (Hst : forall k w, msteps (q_num_f q * q_num_p q) (q_npts q) (qt_current_for_hb J q resp num_b (Some rm)) inv
            (flat2 (q_num_p q) (clamp_vt (h_vt c))) (flat2 (q_num_p q) (h_zt c)) damp k (flat3 (q_num_p q) g) w -> after k (unflat (q_num_p q) w)).
  { intros k w Hk. apply corrections_start with g; [assumption|]. eapply msteps_corrections; eauto. }
  exists n, (unflat (q_num_p q) v), o. split; [now apply Hst|]. split; [assumption|]. unfold how_ended.
  destruct (l_why o).
  - destruct He as [ij [mask [E1 [E2 [E3 [E4 [E5 E6]]]]]]].
    destruct (rel_max_le J c resp num_b rm Ha ER v ij stop Hp E3 E4) as [T1 T2].
    split; [lia|]. split; [lia|]. split; [exact T1|]. split; [exact T2|]. exists mask. split; [assumption|]. intros i Hi. rewrite E6. 
    now apply (finished_met J c resp num_b rm Ha ER v ij stop i Hi E3).
  - destruct He as [ij [mask [E1 [E2 [E3 [E4 [E5 E6]]]]]]]. split; [lia|]. split; [lia|]. split.
    + intros [S1 [S2 S3]]. apply xgt_not_le in E4.
      pose proof (rel_max_le_back J c resp num_b rm Ha ER v ij stop Hp S1 E3 S2 S3) as S4. rewrite S4 in E4. discriminate.
    + exists mask. split; [assumption|]. intros i Hi. rewrite E6. now apply (finished_met J c resp num_b rm Ha ER v ij stop i Hi E3).
  - destruct He as [E1 E2]. destruct n as [|n]; [lia|]. destruct E2 as [E2 [w [ij [mask [W1 [W2 [W3 [W4 [W5 W6]]]]]]]]].
    split; [lia|]. split; [assumption|]. exists (unflat (q_num_p q) w). replace (S n - 1)%nat with n by lia. split; [now apply Hst|].
    split; [eapply mstep_corrected; eauto|].
    split. { apply (rel_max_nan J c resp num_b rm Ha ER w ij Hp W3). assumption. }
    exists mask. split; [assumption|]. intros i Hi. rewrite W6. now apply (finished_met J c resp num_b rm Ha ER w ij stop i Hi W3).
Qed.

Lemma ret_x v o x : ret_of "x" max_it v o = Ok x -> x = RetX v (l_iter o) (negb (l_iter o =? max_it)%Z).
Proof. unfold ret_of. simpl. intros [= <-]. reflexivity. Qed.
Lemma ret_m v o x : ret_of "m" max_it v o = Ok x -> exists m, l_mask o = Some m /\ x = RetM v m.
Proof. unfold ret_of. simpl. destruct (l_mask o) as [m|]; [|discriminate]. intros [= <-]. eauto. Qed.

(** C31, C33 *)
Lemma flag_converged v it : args_ok q num_b -> (1 <= q_npts q)%nat -> some_impedance c -> (0 <= max_it)%Z -> inverts inv ->
  r_ret (call "x") = Ok (RetX v it true) ->
  target_last v /\ (all_defined v -> balanced J (clamped c) resp num_b stop v).
Proof.
  intros Ha Hp Hz Hm Hi H. destruct (hb_run "x" _ Ha Hp Hz Hm Hi H) as [_ [n [w [o [A [R E]]]]]]. apply ret_x in R. injection R as -> -> F.
  unfold how_ended in E. symmetry in F. apply negb_true_iff, Z.eqb_neq in F. destruct (l_why o).
  - tauto.
  - destruct E as [E1 [E2 _]]. lia.
  - destruct E as [E1 [E2 _]]. lia.
Qed.

(** C32 *)
Lemma iterations v it flag : args_ok q num_b -> (1 <= q_npts q)%nat -> some_impedance c -> (0 <= max_it)%Z -> inverts inv ->
  r_ret (call "x") = Ok (RetX v it flag) ->
  (flag = true <-> (it < max_it)%Z) /\ (0 <= it <= max_it)%Z /\
  (after (Z.to_nat it) v \/
   (it = max_it /\ after (Z.to_nat max_it + 1)%nat v /\ exists u i, after (Z.to_nat max_it) u /\ (i < q_npts q)%nat /\ undef u (q_num_f q) (q_num_p q) i)).
Proof.
  intros Ha Hp Hz Hm Hi H. destruct (hb_run "x" _ Ha Hp Hz Hm Hi H) as [_ [n [w [o [A [R E]]]]]]. apply ret_x in R. injection R as -> -> F.
  rewrite F. unfold how_ended in E. rewrite negb_true_iff, Z.eqb_neq. destruct (l_why o).
  - destruct E as [E1 [E2 _]]. split; [lia|]. split; [lia|]. left. rewrite E1, Nat2Z.id. assumption.
  - destruct E as [E1 [E2 _]]. split; [lia|]. split; [lia|]. left. rewrite E1, Nat2Z.id. assumption.
  - destruct E as [E1 [E2 [u [U1 [U2 [[i [Hi' U3]] _]]]]]]. split; [lia|]. split; [lia|]. right. split; [assumption|].
    assert (En : n = (Z.to_nat max_it + 1)%nat) by lia. rewrite <- En. split; [assumption|]. exists u, i. replace (Z.to_nat max_it) with (n - 1)%nat by lia. auto.
Qed.

(** C40 *)
Lemma mask_sound v mask : args_ok q num_b -> (1 <= q_npts q)%nat -> some_impedance c -> (0 <= max_it)%Z -> inverts inv ->
  r_ret (call "m") = Ok (RetM v mask) ->
  mask_for mask v \/
  exists u, corrected J (clamped c) resp num_b damp u v /\ mask_for mask u /\ after (Z.to_nat max_it) u /\
    exists i, (i < q_npts q)%nat /\ undef u (q_num_f q) (q_num_p q) i.
Proof.
  intros Ha Hp Hz Hm Hi H. destruct (hb_run "m" _ Ha Hp Hz Hm Hi H) as [_ [n [w [o [A [R E]]]]]]. apply ret_m in R. destruct R as [m [Em [= -> ->]]].
  unfold how_ended in E. destruct (l_why o).
  - destruct E as [_ [_ [_ [_ [k [Ek E]]]]]]. rewrite Em in Ek. injection Ek as <-. now left.
  - destruct E as [_ [_ [_ [k [Ek E]]]]]. rewrite Em in Ek. injection Ek as <-. now left.
  - destruct E as [E1 [E2 [u [U1 [U2 [U3 [k [Ek E]]]]]]]]. rewrite Em in Ek. injection Ek as <-. right. exists u.
    replace (Z.to_nat max_it) with (n - 1)%nat by lia. auto.
Qed.
End Call.

(** C39 *)
Lemma foreach_guard {A} (l : list A) (g : A -> res unit) (b : A -> bool) : (forall x, In x l -> g x = if b x then Ok tt else Err AssertionError) ->
  foreach l (fun x _ => g x) tt = if forallb b l then Ok tt else Err AssertionError.
Proof.
  induction l as [|x l IH]; intros H; [reflexivity|]. cbn [foreach forallb]. rewrite H by now left. destruct (b x); cbn [bind andb].
  - apply IH. intros; apply H; now right.
  - reflexivity.
Qed.

Lemma npmax_lt l s : xlt_r (npmax l) s = true <-> l <> [] /\ forall a, In a l -> xlt_r a s = true.
Proof.
  destruct l as [|a l]; simpl; [split; [discriminate|intros [H _]; congruence]|].
  assert (M : forall a b, xlt_r (npmax2 a b) s = true <-> xlt_r a s = true /\ xlt_r b s = true).
  { intros [x| |] [y| |]; simpl; split; try discriminate; try tauto; try (intros [? ?]; discriminate).
    - destruct (Rltb_spec (Rmax x y) s); [|discriminate]. intros _. assert (x <= Rmax x y)%R by apply Rmax_l. assert (y <= Rmax x y)%R by apply Rmax_r.
      destruct (Rltb_spec x s), (Rltb_spec y s); auto; lra.
    - destruct (Rltb_spec x s), (Rltb_spec y s); intros [? ?]; try discriminate. destruct (Rltb_spec (Rmax x y) s); [reflexivity|].
      exfalso. unfold Rmax in *. destruct (Rle_dec x y); lra. }
  transitivity (xlt_r a s = true /\ forall b, In b l -> xlt_r b s = true).
  - revert a. induction l as [|b l IH]; intros a; simpl; [split; [auto; intros; tauto|tauto]|]. rewrite IH, M. split.
    + intros [[H1 H2] H3]. split; [assumption|]. intros x [<-|Hc]; auto.
    + intros [H1 H2]. repeat split; auto.
  - split; [intros [H1 H2]; split; [discriminate|]; intros x [<-|Hc]; auto|]. intros [_ H]. auto.
Qed.

(** The check passes exactly if every relative error is below the target. *)
Lemma check_spec J c resp num_b s v : args_ok (h_q c) num_b -> (1 <= q_npts (h_q c))%nat ->
  (everywhere (h_q c) (fun f p i => v f p i <> RtoC 0 /\ (Cmod (residual_at J c resp num_b v f p i) < s * Cmod (v f p i))%R) ->
   check_hb_error J v c resp num_b s = Ok tt) /\
  (~ everywhere (h_q c) (fun f p i => v f p i <> RtoC 0 /\ (Cmod (residual_at J c resp num_b v f p i) < s * Cmod (v f p i))%R) ->
   check_hb_error J v c resp num_b s = Err AssertionError).
Proof.
  intros Ha Hp. destruct (all_freq J (h_q c) resp num_b v Ha) as [ij [E Hij]]. unfold check_hb_error. rewrite E. cbn [bind].
  set (m := fun f p => npmax (map (fun i => xdiv (Cmod (h_vt c f p - h_zt c f p * ij f p i - v f p i)) (Cmod (v f p i))) (seq 0 (q_npts (h_q c))))).
  set (ok := forallb (fun f => forallb (fun p => xlt_r (m f p) s) (seq 1 (q_num_p (h_q c)))) (seq 1 (q_num_f (h_q c)))).
  assert (EQ : foreach (seq 1 (q_num_f (h_q c))) (fun f _ => foreach (seq 1 (q_num_p (h_q c))) (fun p _ => guard (xlt_r (m f p) s) AssertionError) tt) tt
               = if ok then Ok tt else Err AssertionError).
  { apply (foreach_guard _ (fun f => foreach (seq 1 (q_num_p (h_q c))) (fun p _ => guard (xlt_r (m f p) s) AssertionError) tt)). intros f _.
    apply (foreach_guard _ (fun p => guard (xlt_r (m f p) s) AssertionError)). reflexivity. }
  assert (OK : ok = true <-> everywhere (h_q c) (fun f p i => v f p i <> RtoC 0 /\ (Cmod (residual_at J c resp num_b v f p i) < s * Cmod (v f p i))%R)).
  { unfold ok. rewrite forallb_forall. split.
    - intros H f p i [Hf Hp'] Hi. specialize (H f). rewrite forallb_forall in H.
      assert (H' : xlt_r (m f p) s = true) by (apply H; apply in_seq; lia). unfold m in H'. rewrite npmax_lt in H'. destruct H' as [_ H'].
      specialize (H' (xdiv (Cmod (h_vt c f p - h_zt c f p * ij f p i - v f p i)) (Cmod (v f p i)))). rewrite in_map_iff in H'.
      assert (H2 : xlt_r (xdiv (Cmod (h_vt c f p - h_zt c f p * ij f p i - v f p i)) (Cmod (v f p i))) s = true).
      { apply H'. exists i. split; [reflexivity|apply in_seq; lia]. }
      apply xdiv_lt in H2; [|apply Cmod_ge_0]. rewrite Cmod_0_iff, (Hij f p i (conj Hf Hp') Hi) in H2. exact H2.
    - intros H f Hf. apply in_seq in Hf. apply forallb_forall. intros p Hp'. apply in_seq in Hp'. unfold m. rewrite npmax_lt. split.
      { destruct (q_npts (h_q c)); [lia|discriminate]. }
      intros a Hain. apply in_map_iff in Hain. destruct Hain as [i [<- Hi]]. apply in_seq in Hi. apply xdiv_lt; [apply Cmod_ge_0|].
      assert (Hs : signal (h_q c) f p) by (split; lia). assert (Hi' : (i < q_npts (h_q c))%nat) by lia.
      specialize (H f p i Hs Hi'). rewrite Cmod_0_iff, (Hij f p i Hs Hi'). exact H. }
  split; intros H.
  - etransitivity; [exact EQ|]. apply OK in H. now rewrite H.
  - etransitivity; [exact EQ|]. destruct ok; [|reflexivity]. exfalso. apply H. now apply OK.
Qed.
