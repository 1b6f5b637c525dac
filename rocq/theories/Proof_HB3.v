(** harmonic_balance at the level of its interface: tones, harmonics and bias points. *)
From Coq Require Import List ZArith Lia Bool Arith Reals Lra String.
From Coquelicot Require Import Complex.
From Verif Require Import Base Sums Round Model_QtCurrent Spec_QtCurrent Spec_QtApi Proof_QtCurrent Proof_QtCurrent2 Proof_QtSym
  Proof_QtApi Proof_QtApi2 Model_Circuit Proof_Circuit Model_HB Spec_HB Proof_HB Proof_HB2.
Import ListNotations.
Open Scope C_scope.

(** ** Signal numbering *)
Definition sig_k (P f p : nat) : nat := ((f - 1) * P + (p - 1))%nat.

Lemma sig_k_bound F P f p : (1 <= f <= F)%nat -> (1 <= p <= P)%nat -> (sig_k P f p < F * P)%nat.
Proof. intros Hf Hp. unfold sig_k. nia. Qed.
Lemma sig_k_fp P f p : (1 <= f)%nat -> (1 <= p <= P)%nat -> sig_f P (sig_k P f p) = f /\ sig_p P (sig_k P f p) = p.
Proof.
  intros Hf Hp. unfold sig_f, sig_p, sig_k. replace ((f - 1) * P + (p - 1))%nat with ((p - 1) + (f - 1) * P)%nat by lia.
  rewrite Nat.div_add, Nat.mod_add by lia.
  rewrite Nat.div_small, Nat.mod_small by lia. lia.
Qed.
Lemma sig_fp_k P k : (1 <= P)%nat -> sig_k P (sig_f P k) (sig_p P k) = k.
Proof.
  intros HP. unfold sig_f, sig_p, sig_k. replace (k / P + 1 - 1)%nat with (k / P)%nat by lia.
  replace (k mod P + 1 - 1)%nat with (k mod P)%nat by lia. rewrite (Nat.div_mod k P) at 3 by lia. lia.
Qed.
Lemma sig_range F P k : (k < F * P)%nat -> (1 <= sig_f P k <= F)%nat /\ (1 <= sig_p P k <= P)%nat.
Proof.
  intros Hk. assert (P <> 0)%nat by lia. unfold sig_f, sig_p. assert (k mod P < P)%nat by (apply Nat.mod_upper_bound; lia).
  assert (k / P < F)%nat by (apply Nat.div_lt_upper_bound; lia). lia.
Qed.

Lemma unflat_sig P x f p i : (1 <= f)%nat -> (1 <= p)%nat -> unflat P x f p i = x (sig_k P f p) i.
Proof. intros Hf Hp. unfold unflat. destruct f; [lia|]. destruct p; [lia|]. reflexivity. Qed.
Lemma unflat_flat P a f p i : (1 <= f)%nat -> (1 <= p <= P)%nat -> unflat P (flat3 P a) f p i = a f p i.
Proof. intros Hf Hp. rewrite unflat_sig by lia. unfold flat3. now destruct (sig_k_fp P f p Hf Hp) as [-> ->]. Qed.
Lemma unflat_k P x k i : (1 <= P)%nat -> unflat P x (sig_f P k) (sig_p P k) i = x k i.
Proof. intros HP. rewrite unflat_sig by (unfold sig_f, sig_p; lia). now rewrite sig_fp_k. Qed.

Lemma flat_map_nth {A} (g : nat -> nat -> A) P F : (1 <= P)%nat -> forall k, (k < F * P)%nat ->
  nth_error (flat_map (fun f => map (g f) (seq 1 P)) (seq 1 F)) k = Some (g (sig_f P k) (sig_p P k)).
Proof.
  intros HP. induction F as [|F IH]; intros k Hk; [lia|].
  rewrite seq_S, flat_map_app. cbn [flat_map]. rewrite app_nil_r.
  assert (L : List.length (flat_map (fun f => map (g f) (seq 1 P)) (seq 1 F)) = (F * P)%nat).
  { clear. generalize 1%nat at 2. induction F as [|F IH]; intros s; [reflexivity|]. cbn [seq flat_map]. rewrite app_length, map_length, seq_length, IH. lia. }
  destruct (lt_dec k (F * P)) as [H|H].
  - rewrite nth_error_app1 by lia. now apply IH.
  - rewrite nth_error_app2 by lia. rewrite L. rewrite nth_error_map.
    rewrite (nth_error_nth' _ 0%nat) by (rewrite seq_length; lia). rewrite seq_nth by lia. cbn [option_map]. f_equal.
    assert (E : k = ((k - F * P) + F * P)%nat) by lia. unfold sig_f, sig_p. rewrite E at 2 3.
    rewrite Nat.div_add, Nat.mod_add by lia. rewrite Nat.div_small, Nat.mod_small by lia. f_equal; lia.
Qed.

Lemma csum_signals F P (g : nat -> C) : 
  csum (seq 0 (F * P)) g = csum (seq 1 F) (fun f => csum (seq 1 P) (fun p => g (sig_k P f p))).
Proof.
  induction F as [|F IH]; [reflexivity|].
  replace (S F * P)%nat with (F * P + P)%nat by lia. rewrite seq_app, csum_app, IH, (seq_S F 1), csum_app. f_equal.
  cbn [csum]. rewrite Cplus_0_r. unfold sig_k. replace (1 + F - 1)%nat with F by lia. cbn [plus].
  generalize (F * P)%nat. clear. intros n. generalize P. clear. intros P. 
  assert (H : forall s, csum (seq (n + s) P) g = csum (seq (S s) P) (fun p => g (n + (p - 1))%nat)).
  { induction P as [|P IH]; intros s; [reflexivity|]. cbn [seq csum]. f_equal; [f_equal; lia|]. replace (S (n + s)) with (n + S s)%nat by lia. apply IH. }
  specialize (H 0%nat). now rewrite Nat.add_0_r in H.
Qed.

(** ** The junction current *)
Lemma current_at_ext J q resp num_b v v' f p i : (i < q_npts q)%nat -> agree q v v' ->
  current_at J q resp num_b v f p i = current_at J q resp num_b v' f p i.
Proof.
  intros Hi H. unfold current_at. apply current_ext; [|reflexivity]. unfold tones. apply Forall2_map_seq. intros g Hg.
  split; [reflexivity|]. intros k _. unfold tone_of. cbn [t_C]. apply phase_factor_ext. intros m n Hm.
  rewrite (H g m i); [reflexivity| |assumption]. split; lia.
Qed.

Lemma qt_for_hb J q resp num_b rm v : args_ok q num_b -> interpolate_respfn q resp num_b = Ok rm ->
  exists ij, qt_current_for_hb J q resp num_b (Some rm) v = Ok ij /\
  forall k i, (k < q_num_f q * q_num_p q)%nat -> (i < q_npts q)%nat ->
    ij k i = current_at J q resp num_b (unflat (q_num_p q) v) (sig_f (q_num_p q) k) (sig_p (q_num_p q) k) i.
Proof.
  intros Ha ER. unfold qt_current_for_hb.
  set (fl := flat_map _ _).
  rewrite (supplied_matrix J _ q q resp (FList fl) num_b num_b rm); auto; [|now apply nbtuple_ok|apply nbtuple_refl_le].
  rewrite qt_list by assumption. cbn [bind]. eexists. split; [reflexivity|]. intros k i Hk Hi. cbv beta.
  assert (HP : (1 <= q_num_p q)%nat) by (destruct Ha as [_ [H _]]; exact H).
  assert (E : nth_error fl k = Some (round4 (q_freq q (sig_f (q_num_p q) k) * INR (sig_p (q_num_p q) k)))).
  { unfold fl. now rewrite (flat_map_nth (fun f p => round4 (q_freq q f * INR p))). }
  rewrite (nth_error_nth _ _ _ (map_nth_error _ _ _ E)). unfold spec_row. rewrite tab_nth by assumption.
  unfold current_at, current. apply csum_ext. intros a _. unfold same_freq. now rewrite round4_idem.
Qed.

Lemma all_freq J q resp num_b v : args_ok q num_b ->
  exists ij, qtcurrent_all_freq J v q resp num_b = Ok ij /\
  everywhere q (fun f p i => ij f p i = current_at J q resp num_b v f p i).
Proof.
  intros Ha. unfold qtcurrent_all_freq. set (fl := flat_map _ _). rewrite qt_list by assumption. cbn [bind].
  eexists. split; [reflexivity|]. intros f p i [Hf Hp] Hi. rewrite unflat_sig by lia.
  assert (HP : (1 <= q_num_p q)%nat) by (destruct Ha as [_ [H _]]; exact H).
  assert (E : nth_error fl (sig_k (q_num_p q) f p) = Some (q_freq q f * INR p)%R).
  { unfold fl. rewrite (flat_map_nth (fun f p => (q_freq q f * INR p)%R)) by (try lia; now apply sig_k_bound).
    destruct (sig_k_fp (q_num_p q) f p) as [-> ->]; [lia|lia|reflexivity]. }
  rewrite (nth_error_nth _ _ _ (map_nth_error _ _ _ E)). unfold spec_row. now rewrite tab_nth.
Qed.

(** ** Calls *)
Lemma all_zero_false c : (exists f p, (f <= q_num_f (h_q c))%nat /\ (p <= q_num_p (h_q c))%nat /\ h_zt c f p <> RtoC 0) <->
  all_zero (q_num_f (h_q c)) (q_num_p (h_q c)) (h_zt c) = false.
Proof.
  split.
  - intros [f [p [Hf [Hp Hz]]]]. destruct (all_zero _ _ _) eqn:E; [|reflexivity]. exfalso. unfold all_zero in E.
    rewrite forallb_forall in E. specialize (E f). rewrite forallb_forall in E. 
    assert (E' : Reqb (Cmod (h_zt c f p)) 0 = true) by (apply E; apply in_seq; lia).
    destruct (Reqb_spec (Cmod (h_zt c f p)) 0) as [H|H]; [|discriminate]. apply Hz. now apply Cmod_0_iff.
  - unfold all_zero. intros H.
    assert (G : forall (g : nat -> bool) l, forallb g l = false -> exists x, In x l /\ g x = false).
    { intros g l. induction l as [|x l IH]; simpl; [discriminate|]. destruct (g x) eqn:E; simpl.
      - intros Hl. destruct (IH Hl) as [y [Hy Ey]]. eauto.
      - intros _. eauto. }
    apply G in H. destruct H as [f [Hf H]]. apply G in H. destruct H as [p [Hp H]]. apply in_seq in Hf, Hp.
    exists f, p. split; [lia|]. split; [lia|]. intros E. rewrite E, Cmod_0 in H. destruct (Reqb_spec 0 0); [discriminate|lra].
Qed.
Lemma all_zero_true c : (forall f p, (f <= q_num_f (h_q c))%nat -> (p <= q_num_p (h_q c))%nat -> h_zt c f p = RtoC 0) <->
  all_zero (q_num_f (h_q c)) (q_num_p (h_q c)) (h_zt c) = true.
Proof.
  destruct (all_zero (q_num_f (h_q c)) (q_num_p (h_q c)) (h_zt c)) eqn:E.
  - split; [reflexivity|]. intros _ f p Hf Hp. destruct (Ceq_dec (h_zt c f p) (RtoC 0)) as [H|H]; [assumption|].
    assert (F : all_zero (q_num_f (h_q c)) (q_num_p (h_q c)) (h_zt c) = false) by (apply all_zero_false; eauto). congruence.
  - split; [|discriminate]. intros H. apply all_zero_false in E. destruct E as [f [p [Hf [Hp E]]]]. now rewrite H in E.
Qed.

Lemma clamp_source vt f p : (1 <= f)%nat -> (1 <= p)%nat -> clamp_vt vt f p = source (vt f p).
Proof.
  intros Hf Hp. unfold clamp_vt, source, MIN_VT. destruct f; [lia|]. destruct p; [lia|]. cbn [Nat.eqb orb].
  destruct (Rltb_spec (Cmod (vt (S f) (S p))) (/ 10 ^ 10)), (Rlt_dec (Cmod (vt (S f) (S p))) (/ 10 ^ 10)); try reflexivity; contradiction.
Qed.

(** The circuit after a call that gets past the checks. *)
Definition clamped (c : hcct) : hcct := {| h_q := h_q c; h_vt := clamp_vt (h_vt c); h_zt := h_zt c; h_wvt := h_wvt c |}.

Section Call.
Variable J : nat -> R -> R.
Variable inv : nat -> (nat -> nat -> R) -> option (nat -> nat -> R).

Definition hb_loop (c : hcct) resp num_b rm max_it stop damp (g : arr3) :=
  let q := h_q c in let P := q_num_p q in
  run_newton (q_num_f q * P) (q_npts q) (qt_current_for_hb J q resp num_b (Some rm)) inv
    (flat2 P (clamp_vt (h_vt c))) (flat2 P (h_zt c)) stop damp max_it (flat3 P g).

Definition ret_of (mode : string) (max_it : Z) (v : arr3) (o : loop_out) : res hb_ret :=
  if (mode =? "o")%string then Ok (RetV v)
  else if (mode =? "x")%string then Ok (RetX v (l_iter o) (negb (l_iter o =? max_it)%Z))
  else if (mode =? "m")%string then match l_mask o with Some m => Ok (RetM v m) | None => Err NameError end
  else Ok RetNone.

Definition some_impedance (c : hcct) : Prop :=
  exists f p, (f <= q_num_f (h_q c))%nat /\ (p <= q_num_p (h_q c))%nat /\ h_zt c f p <> RtoC 0.

Lemma hb_ok c resp num_b max_it stop vj0 damp mode zj x : some_impedance c ->
  r_ret (harmonic_balance J inv c resp num_b max_it stop vj0 damp mode zj) = Ok x ->
  r_cct (harmonic_balance J inv c resp num_b max_it stop vj0 damp mode zj) = clamped c /\ h_wvt c = true /\
  exists g rm v o, agree (h_q c) (start c vj0 zj) g /\ interpolate_respfn (h_q c) resp num_b = Ok rm /\
    hb_loop c resp num_b rm max_it stop damp g = (v, Ok o) /\ ret_of mode max_it (unflat (q_num_p (h_q c)) v) o = Ok x.
Proof.
  intros Hz. apply all_zero_false in Hz. unfold harmonic_balance. rewrite Hz. destruct (h_wvt c) eqn:Ew; cbn [negb]; [|discriminate].
  set (vt := clamp_vt (h_vt c)). set (c' := {| h_q := h_q c; h_vt := vt; h_zt := h_zt c; h_wvt := true |}).
  assert (Ec : c' = clamped c) by (unfold c', clamped; now rewrite Ew).
  set (g := match vj0 with Some a => Some a | None => default_guess (h_q c) vt (h_zt c) zj end).
  assert (Hg : forall a, g = Some a -> agree (h_q c) (start c vj0 zj) a).
  { intros a Ea f p i [Hf Hp] Hi. unfold g in Ea. unfold start. destruct vj0 as [a0|].
    - injection Ea as <-. reflexivity.
    - unfold default_guess in Ea. destruct (forallb _ _); [|discriminate]. injection Ea as <-. unfold vt. rewrite clamp_source by lia. reflexivity. }
  destruct g as [a|] eqn:Eg; [|discriminate].
  destruct (interpolate_respfn (h_q c) resp num_b) as [rm|e] eqn:ER; [|discriminate].
  match goal with |- context [run_newton ?n ?p ?q ?i ?t ?z ?s ?d ?m ?g] =>
    change (run_newton n p q i t z s d m g) with (hb_loop c resp num_b rm max_it stop damp a) end.
  destruct (hb_loop c resp num_b rm max_it stop damp a) as [v r] eqn:EL. cbn [r_ret r_cct]. intros H. apply bind_ok in H. destruct H as [o [-> H]].
  split; [assumption|]. split; [reflexivity|]. exists a, rm, v, o. auto.
Qed.

(** Residuals of the loop are residuals of the balance equations. *)
Lemma residual_at_2d c resp num_b v ij k i : args_ok (h_q c) num_b -> (k < q_num_f (h_q c) * q_num_p (h_q c))%nat ->
  ij k i = current_at J (h_q c) resp num_b (unflat (q_num_p (h_q c)) v) (sig_f (q_num_p (h_q c)) k) (sig_p (q_num_p (h_q c)) k) i ->
  residual (flat2 (q_num_p (h_q c)) (clamp_vt (h_vt c))) (flat2 (q_num_p (h_q c)) (h_zt c)) ij v k i =
  residual_at J (clamped c) resp num_b (unflat (q_num_p (h_q c)) v) (sig_f (q_num_p (h_q c)) k) (sig_p (q_num_p (h_q c)) k) i.
Proof.
  intros Ha Hk E. unfold residual, residual_at, flat2. cbn [h_vt h_zt h_q clamped]. rewrite E. rewrite unflat_k; [reflexivity|].
  destruct Ha as [_ [H _]]; exact H.
Qed.

Lemma residual_at_ext c resp num_b v v' : agree (h_q c) v v' -> everywhere (h_q c) (fun f p i =>
  residual_at J c resp num_b v f p i = residual_at J c resp num_b v' f p i).
Proof. intros H f p i Hs Hi. unfold residual_at. rewrite (current_at_ext J (h_q c) resp num_b v v') by assumption. now rewrite (H f p i Hs Hi). Qed.

Lemma agree_refl q v : agree q v v.
Proof. intros f p i _ _. reflexivity. Qed.
Lemma agree_sym q v v' : agree q v v' -> agree q v' v.
Proof. intros H f p i Hs Hi. symmetry. now apply H. Qed.
Lemma agree_trans q u v w : agree q u v -> agree q v w -> agree q u w.
Proof. intros H1 H2 f p i Hs Hi. rewrite (H1 f p i Hs Hi). now apply H2. Qed.

Section OneCircuit.
Variables (c : hcct) (resp : R -> C) (num_b : numb) (rm : respmat).
Hypothesis Ha : args_ok (h_q c) num_b.
Hypothesis ER : interpolate_respfn (h_q c) resp num_b = Ok rm.
Let q := h_q c.
Let P := q_num_p q.
Let n := (q_num_f q * P)%nat.
Let qt := qt_current_for_hb J q resp num_b (Some rm).
Let vt2 := flat2 P (clamp_vt (h_vt c)).
Let zt2 := flat2 P (h_zt c).

Lemma HP1 : (1 <= P)%nat.
Proof. destruct Ha as [_ [H _]]; exact H. Qed.
Lemma Hn1 : (1 <= n)%nat.
Proof. pose proof HP1. destruct Ha as [[H' _] _]. fold q in H'. unfold n. nia. Qed.

Lemma qt_residual v ij k i : qt v = Ok ij -> (k < n)%nat -> (i < q_npts q)%nat ->
  residual vt2 zt2 ij v k i = residual_at J (clamped c) resp num_b (unflat P v) (sig_f P k) (sig_p P k) i.
Proof.
  intros E Hk Hi. apply residual_at_2d; try assumption. destruct (qt_for_hb J q resp num_b rm v Ha ER) as [ij' [E' H']].
  unfold qt in E. rewrite E in E'. injection E' as <-. now apply H'.
Qed.
Lemma qt_residual_fp v ij f p i : qt v = Ok ij -> signal q f p -> (i < q_npts q)%nat ->
  residual vt2 zt2 ij v (sig_k P f p) i = residual_at J (clamped c) resp num_b (unflat P v) f p i.
Proof.
  intros E [Hf Hp] Hi. rewrite (qt_residual v ij _ i E (sig_k_bound (q_num_f q) P f p Hf Hp) Hi).
  assert (Hf1 : (1 <= f)%nat) by lia. now destruct (sig_k_fp P f p Hf1 Hp) as [-> ->].
Qed.

Lemma bump_bumped u v f p dv : signal q f p -> dv = u * RtoC DV ->
  agree q (unflat P (bump u (sig_k P f p) v)) (bumped (unflat P v) f p dv).
Proof.
  intros [Hf Hp] -> g r i [Hg Hr] Hi. rewrite !unflat_sig by lia. unfold bump, bumped. rewrite !unflat_sig by lia.
  assert (E : (sig_k P g r =? sig_k P f p)%nat = ((g =? f) && (r =? p))%nat).
  { apply eq_iff_eq_true. rewrite andb_true_iff, !Nat.eqb_eq. split; [|intros [-> ->]; reflexivity].
    intros E. destruct (sig_k_fp P g r) as [E1 E2]; [lia|assumption|]. rewrite E in E1, E2. destruct (sig_k_fp P f p) as [E3 E4]; [lia|assumption|]. split; congruence. }
  rewrite E. destruct ((g =? f) && (r =? p))%nat; [reflexivity|ring].
Qed.

Hypothesis inv_right : forall n M N, inv n M = Some N -> right_inverse n M N.
Variable damp : R.

Lemma mstep_corrected v v' : mstep n (q_npts q) qt inv vt2 zt2 damp v v' ->
  corrected J (clamped c) resp num_b damp (unflat P v) (unflat P v').
Proof.
  intros St. apply mstep_newton in St; [|assumption]. destruct St as [x [[ij [ire [iim [E0 [Eb Heq]]]]] Hv']].
  exists (unflat P x). split.
  - intros f p i Hs Hi. cbv zeta. cbn [h_q clamped]. fold q P. change (h_q (clamped c)) with q in Hs, Hi.
    pose proof Hs as [Hf Hp]. specialize (Heq (sig_k P f p) i (sig_k_bound (q_num_f q) P f p Hf Hp) Hi).
    rewrite (qt_residual_fp v ij f p i E0 Hs Hi) in Heq. rewrite <- Heq. unfold n at 1. rewrite csum_signals.
    apply csum_ext. intros g Hg. apply in_seq in Hg. apply csum_ext. intros r Hr. apply in_seq in Hr.
    assert (Hs' : signal q g r) by (split; [lia|]; fold P; lia). assert (Hb : (sig_k P g r < n)%nat) by (apply sig_k_bound; [lia|unfold P in *; lia]).
    destruct (Eb _ Hb) as [E1 E2]. rewrite !unflat_sig by lia.
    rewrite (qt_residual_fp _ _ f p i E1 Hs Hi), (qt_residual_fp _ _ f p i E2 Hs Hi).
    rewrite (residual_at_ext (clamped c) resp num_b _ _ (bump_bumped (RtoC 1) v g r (RtoC (/ 10 ^ 3)) Hs' ltac:(unfold DV; ring)) f p i Hs Hi).
    rewrite (residual_at_ext (clamped c) resp num_b _ _ (bump_bumped Ci v g r (Ci * RtoC (/ 10 ^ 3)) Hs' ltac:(unfold DV; ring)) f p i Hs Hi).
    unfold DV. reflexivity.
  - intros f p i [Hf Hp] Hi. rewrite !unflat_sig by lia. apply Hv'.
Qed.

Lemma newton_correction_ext v w x : agree q v w -> newton_correction J (clamped c) resp num_b v x -> newton_correction J (clamped c) resp num_b w x.
Proof.
  intros H Hx f p i Hs Hi. specialize (Hx f p i Hs Hi). cbv zeta in *.
  assert (B : forall g r dv, agree q (bumped w g r dv) (bumped v g r dv)).
  { intros g r dv f' p' i' Hs' Hi'. unfold bumped. now rewrite (H f' p' i' Hs' Hi'). }
  rewrite (residual_at_ext (clamped c) resp num_b _ _ (agree_sym _ _ _ H) f p i Hs Hi). rewrite <- Hx.
  apply csum_ext. intros g _. apply csum_ext. intros r _.
  now rewrite !(residual_at_ext (clamped c) resp num_b _ _ (B g r _) f p i Hs Hi).
Qed.

Lemma corrections_start m u v w : agree q u v -> corrections J (clamped c) resp num_b damp m v w -> corrections J (clamped c) resp num_b damp m u w.
Proof.
  intros H Hc. revert u H. induction Hc as [v v' H'|m v v1 v2 H' IH St]; intros u H.
  - constructor. now apply agree_trans with v.
  - econstructor; [apply IH, H|assumption].
Qed.

Lemma msteps_corrections m g v : msteps n (q_npts q) qt inv vt2 zt2 damp m (flat3 P g) v ->
  corrections J (clamped c) resp num_b damp m g (unflat P v).
Proof.
  intros H. remember (flat3 P g) as v0. induction H as [v|m v v1 v2 H IH St]; subst.
  - constructor. intros f p i [Hf Hp] Hi. symmetry. apply unflat_flat; [lia|assumption].
  - econstructor; [now apply IH|]. now apply mstep_corrected.
Qed.

(** The two exits of the loop in terms of the balance equations. *)
Lemma last_signal : sig_f P (n - 1) = q_num_f q /\ sig_p P (n - 1) = q_num_p q.
Proof.
  pose proof HP1. pose proof Hn1. assert (E : (n - 1 = sig_k P (q_num_f q) (q_num_p q))%nat).
  { unfold n, sig_k. fold P. assert (q_num_f q <> 0)%nat by (unfold n in *; lia). destruct (q_num_f q) as [|F]; [lia|]. simpl. nia. }
  rewrite E. apply sig_k_fp; [|unfold P; unfold P in H; lia]. unfold n in *. destruct (q_num_f q); lia.
Qed.

Lemma rel_max_le v ij s : (1 <= q_npts q)%nat -> qt v = Ok ij -> xle_r (rel_max n (q_npts q) vt2 zt2 ij v) s = true ->
  (forall i, (i < q_npts q)%nat -> ~ undefined J (clamped c) resp num_b (unflat P v) (q_num_f q) (q_num_p q) i /\
     (Cmod (residual_at J (clamped c) resp num_b (unflat P v) (q_num_f q) (q_num_p q) i) <= s * Cmod (unflat P v (q_num_f q) (q_num_p q) i))%R) /\
  ((forall f p i, signal q f p -> (i < q_npts q)%nat -> ~ undefined J (clamped c) resp num_b (unflat P v) f p i) ->
   balanced J (clamped c) resp num_b s (unflat P v)).
Proof.
  intros Hp E H. unfold rel_max in H. pose proof HP1. pose proof Hn1. split.
  - intros i Hi. destruct (max_rel_last n (q_npts q) _ _ s Hp Hn1 H i Hi) as [G1 G2].
    rewrite (qt_residual v ij (n - 1) i E) in G2 by (try lia; assumption).
    rewrite <- (unflat_k P v (n - 1) i) in G1, G2 by lia. destruct last_signal as [E1 E2]. rewrite E1, E2 in *.
    split; [|assumption]. unfold undefined. tauto.
  - intros Hu f p i Hs Hi. change (h_q (clamped c)) with q in *. destruct Hs as [Hf Hp'].
    assert (Hk := sig_k_bound (q_num_f q) P f p Hf Hp').
    destruct (max_rel_le n (q_npts q) _ _ s Hp H (sig_k P f p) Hk) with (i := i) as [G1 G2]; [|assumption|].
    + intros k' j Hk' Hj [U1 U2]. rewrite (qt_residual v ij k' j E) in U2 by (try lia; assumption).
      apply (Hu (sig_f P k') (sig_p P k') j); [|assumption|].
      * assert (R := sig_range (q_num_f q) P k'). split; apply R; unfold n in Hk'; lia.
      * split; [|exact U2]. now rewrite unflat_k.
    + rewrite (qt_residual_fp v ij f p i E) in G2 by (try assumption; split; assumption). now rewrite unflat_sig by lia.
Qed.

Lemma rel_max_nan v ij : (1 <= q_npts q)%nat -> qt v = Ok ij -> rel_max n (q_npts q) vt2 zt2 ij v = NaN <->
  exists i, (i < q_npts q)%nat /\ undefined J (clamped c) resp num_b (unflat P v) (q_num_f q) (q_num_p q) i.
Proof.
  intros Hp E. pose proof HP1. pose proof Hn1. unfold rel_max. rewrite max_rel_nan by assumption. destruct last_signal as [E1 E2].
  split; intros [i [Hi [U1 U2]]]; exists i; (split; [assumption|]).
  - rewrite (qt_residual v ij (n - 1) i E) in U2 by (try lia; assumption). rewrite <- (unflat_k P v (n - 1) i) in U1 by lia. rewrite E1, E2 in *. now split.
  - rewrite <- E1, <- E2 in U1, U2. rewrite unflat_k in U1 by lia. split; [assumption|]. now rewrite (qt_residual v ij (n - 1) i E) by (try lia; assumption).
Qed.

(** Strict bounds: the mask and the check. *)
Definition met (s : R) (v : arr3) (i : nat) : Prop := forall f p, signal q f p ->
  v f p i <> RtoC 0 /\ (Cmod (residual_at J (clamped c) resp num_b v f p i) < s * Cmod (v f p i))%R.

Lemma finished_met v ij s i : (i < q_npts q)%nat -> qt v = Ok ij ->
  finished_points n s (residual vt2 zt2 ij v) v i = true <-> met s (unflat P v) i.
Proof.
  intros Hi E. rewrite finished_spec. pose proof HP1. split.
  - intros H' f p [Hf Hp]. destruct (H' (sig_k P f p) (sig_k_bound (q_num_f q) P f p Hf Hp)) as [H1 H2].
    rewrite (qt_residual_fp v ij f p i E) in H2 by (try assumption; split; assumption). rewrite unflat_sig by lia. split; [exact H1|exact H2].
  - intros H' k Hk. destruct (sig_range (q_num_f q) P k Hk) as [Hf Hp]. destruct (H' (sig_f P k) (sig_p P k)) as [H1 H2]; [split; assumption|].
    rewrite unflat_k in H1, H2 by lia. rewrite (qt_residual v ij k i E) by assumption. split; [exact H1|exact H2].
Qed.

Lemma rel_max_le_back v ij s : (1 <= q_npts q)%nat -> (0 <= s)%R -> qt v = Ok ij ->
  everywhere q (fun f p i => unflat P v f p i <> RtoC 0) -> balanced J (clamped c) resp num_b s (unflat P v) ->
  xle_r (rel_max n (q_npts q) vt2 zt2 ij v) s = true.
Proof.
  intros Hp Hs E Hnz Hb. pose proof HP1. unfold rel_max. apply max_rel_le_back; [assumption|assumption|]. intros k i Hk Hi.
  destruct (sig_range (q_num_f q) P k Hk) as [Hf Hp']. specialize (Hnz (sig_f P k) (sig_p P k) i (conj Hf Hp') Hi).
  specialize (Hb (sig_f P k) (sig_p P k) i (conj Hf Hp') Hi). cbv beta in *. rewrite unflat_k in Hnz, Hb by lia.
  rewrite (qt_residual v ij k i E) by assumption. auto.
Qed.
End OneCircuit.
End Call.
