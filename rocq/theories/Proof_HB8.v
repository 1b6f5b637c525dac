(** The bias points of harmonic_balance do not influence each other. *)
From Coq Require Import List ZArith Lia Bool Arith Reals Lra String.
From Coquelicot Require Import Complex.
From Verif Require Import Base Sums Round Model_QtCurrent Spec_QtCurrent Spec_QtApi Proof_QtCurrent Proof_QtCurrent2 Proof_QtSym
  Proof_QtApi Proof_QtApi2 Model_Circuit Proof_Circuit Model_HB Spec_HB Spec_HB2 Proof_HB Proof_HB2 Proof_HB3 Proof_HB4 Proof_HB5.
Import ListNotations.
Local Notation length := List.length.
Open Scope C_scope.

Lemma mapM_ok {A B} (f : A -> res B) l : (forall x, In x l -> exists y, f x = Ok y) -> exists ys, mapM f l = Ok ys.
Proof.
  induction l as [|x l IH]; intros H; [exists []; reflexivity|]. destruct (H x (or_introl eq_refl)) as [y E].
  destruct IH as [ys E']; [intros z Hz; apply H; now right|]. exists (y :: ys). cbn [mapM]. rewrite E. cbn [bind]. rewrite E'. reflexivity.
Qed.

Section Step.
Variables num_n npts npts' : nat.
Variables qt qt' : arr2 -> res arr2.
Variable inv : nat -> (nat -> nat -> R) -> option (nat -> nat -> R).
Variables vt zt vt' zt' : nat -> C.
Variable damp : R.
Variable phi : nat -> nat.
Hypothesis Hinv : reads_entries inv.
Hypothesis Hphi : forall i, (i < npts')%nat -> (phi i < npts)%nat.
Hypothesis Hvt : forall k, (k < num_n)%nat -> vt' k = vt k.
Hypothesis Hzt : forall k, (k < num_n)%nat -> zt' k = zt k.
Let sel (v v' : arr2) := forall k i, (k < num_n)%nat -> (i < npts')%nat -> v' k i = v k (phi i).
Hypothesis Hqt : forall v v' ij, sel v v' -> qt v = Ok ij -> exists ij', qt' v' = Ok ij' /\ sel ij ij'.

Lemma residual_sel v v' ij ij' : sel v v' -> sel ij ij' -> sel (residual vt zt ij v) (residual vt' zt' ij' v').
Proof. intros A B k i Hk Hi. unfold residual. now rewrite Hvt, Hzt, A, B by assumption. Qed.
Lemma bump_sel u q v v' : sel v v' -> sel (bump u q v) (bump u q v').
Proof. intros A k i Hk Hi. unfold bump. now rewrite A by assumption. Qed.

Lemma jacobian_sel v v' err err' jac : sel v v' -> sel err err' -> jacobian num_n qt vt zt err v = Ok jac ->
  exists jac', jacobian num_n qt' vt' zt' err' v' = Ok jac' /\
  forall i a b, (i < npts')%nat -> (a < 2 * num_n)%nat -> (b < 2 * num_n)%nat -> jac' i a b = jac (phi i) a b.
Proof.
  intros A B H. unfold jacobian in *. apply bind_ok in H. destruct H as [cols [Ec H]].
  apply (f_equal (fun r => match r with Ok x => x | Err _ => jac end)) in H. cbv beta iota in H. subst jac.
  set (col := fun q => let* ij_re := qt (bump (RtoC 1) q v) in let* ij_im := qt (bump Ci q v) in
      Ok (residual vt zt ij_re (bump (RtoC 1) q v), residual vt zt ij_im (bump Ci q v))) in *.
  set (col' := fun q => let* ij_re := qt' (bump (RtoC 1) q v') in let* ij_im := qt' (bump Ci q v') in
      Ok (residual vt' zt' ij_re (bump (RtoC 1) q v'), residual vt' zt' ij_im (bump Ci q v'))).
  assert (S : forall q e, col q = Ok e -> exists e', col' q = Ok e' /\ sel (fst e) (fst e') /\ sel (snd e) (snd e')).
  { intros q e E. unfold col in E. apply bind_ok in E. destruct E as [ir [E1 E]]. apply bind_ok in E. destruct E as [ii [E2 E]]. injection E as <-.
    destruct (Hqt _ _ _ (bump_sel (RtoC 1) q v v' A) E1) as [ir' [E1' S1]]. destruct (Hqt _ _ _ (bump_sel Ci q v v' A) E2) as [ii' [E2' S2]].
    eexists. split. { unfold col'. rewrite E1'. cbn [bind]. rewrite E2'. reflexivity. }
    split; apply residual_sel; auto; now apply bump_sel. }
  destruct (mapM_nth col (seq 0 num_n) cols Ec) as [L N].
  assert (G : forall q, (q < num_n)%nat -> exists e, nth_error cols q = Some e /\ col q = Ok e).
  { intros q Hq. apply N. rewrite nth_error_seq by assumption. reflexivity. }
  destruct (mapM_ok col' (seq 0 num_n)) as [cols' Ec'].
  { intros q Hq. apply in_seq in Hq. destruct (G q ltac:(lia)) as [e [_ E]]. destruct (S q e E) as [e' [E' _]]. eauto. }
  destruct (mapM_nth col' (seq 0 num_n) cols' Ec') as [L' N'].
  fold col'. rewrite Ec'. cbn [bind]. eexists. split; [reflexivity|]. intros i a b Hi Ha Hb. cbv beta.
  assert (Hb2 : (b / 2 < num_n)%nat) by (apply Nat.div_lt_upper_bound; lia). assert (Ha2 : (a / 2 < num_n)%nat) by (apply Nat.div_lt_upper_bound; lia).
  destruct (G _ Hb2) as [e [-> E]]. destruct (N' (b / 2)%nat (b / 2)%nat) as [e' [-> E']]; [now rewrite nth_error_seq|].
  destruct (S _ _ E) as [e'' [E'' [S1 S2]]]. rewrite E' in E''. injection E'' as <-. destruct e as [e1 e2], e' as [e1' e2']. cbn [fst snd] in *.
  unfold jac_entry. now rewrite (S1 _ _ Ha2 Hi), (S2 _ _ Ha2 Hi), (B _ _ Ha2 Hi).
Qed.

Lemma inverse_sel v v' err err' js : sel v v' -> sel err err' -> inv_jacobian num_n npts qt inv vt zt err v = Ok js ->
  exists js', inv_jacobian num_n npts' qt' inv vt' zt' err' v' = Ok js' /\
  forall i, (i < npts')%nat -> nth i js' (fun _ _ => 0%R) = nth (phi i) js (fun _ _ => 0%R).
Proof.
  intros A B H. unfold inv_jacobian in *. apply bind_ok in H. destruct H as [jac [Ej H]].
  destruct (jacobian_sel v v' err err' jac A B Ej) as [jac' [Ej' S]]. rewrite Ej'. cbn [bind].
  set (g := fun i => match inv (2 * num_n) (jac i) with Some m => Ok m | None => Err LinAlgError end) in *.
  set (g' := fun i => match inv (2 * num_n) (jac' i) with Some m => Ok m | None => Err LinAlgError end).
  assert (E : forall i, (i < npts')%nat -> g' i = g (phi i)).
  { intros i Hi. unfold g, g'. rewrite (Hinv (2 * num_n)%nat (jac' i) (jac (phi i))); [reflexivity|]. intros a b Ha Hb. now apply S. }
  destruct (mapM_nth g (seq 0 npts) js H) as [L N].
  assert (G : forall i, (i < npts)%nat -> exists m, nth_error js i = Some m /\ g i = Ok m).
  { intros i Hi. apply N. rewrite nth_error_seq by assumption. reflexivity. }
  destruct (mapM_ok g' (seq 0 npts')) as [js' Es'].
  { intros i Hi. apply in_seq in Hi. rewrite E by lia. destruct (G (phi i)) as [m [_ Em]]; [apply Hphi; lia|]. eauto. }
  exists js'. split; [exact Es'|]. intros i Hi. destruct (mapM_nth g' (seq 0 npts') js' Es') as [L' N'].
  destruct (N' i i) as [m' [Em' G']]; [now rewrite nth_error_seq|]. destruct (G (phi i) (Hphi i Hi)) as [m [Em Gm]].
  rewrite E in G' by assumption. rewrite Gm in G'. injection G' as ->.
  now rewrite (nth_error_nth _ _ _ Em), (nth_error_nth _ _ _ Em').
Qed.

Lemma corr_sel (js js' : nat -> nat -> nat -> R) err err' k i : sel err err' -> (i < npts')%nat -> js' i = js (phi i) ->
  corr num_n js' err' k i = corr num_n js err k (phi i).
Proof.
  intros A Hi E. unfold corr. rewrite E.
  assert (H : forall l c, (forall q, In q l -> (q < num_n)%nat) ->
    fold_left (fun c q => Cminus (Cminus c (RtoC (js (phi i) (k * 2) (q * 2) * Re (err' q i) + js (phi i) (k * 2) (q * 2 + 1) * Im (err' q i)))%nat)
      (Cmult Ci (RtoC (js (phi i) (k * 2 + 1) (q * 2) * Re (err' q i) + js (phi i) (k * 2 + 1) (q * 2 + 1) * Im (err' q i))))%nat) l c =
    fold_left (fun c q => Cminus (Cminus c (RtoC (js (phi i) (k * 2) (q * 2) * Re (err q (phi i)) + js (phi i) (k * 2) (q * 2 + 1) * Im (err q (phi i))))%nat)
      (Cmult Ci (RtoC (js (phi i) (k * 2 + 1) (q * 2) * Re (err q (phi i)) + js (phi i) (k * 2 + 1) (q * 2 + 1) * Im (err q (phi i)))))%nat) l c).
  { induction l as [|q l IH]; intros c H; [reflexivity|]. cbn [fold_left]. rewrite (A q i) by (auto; apply H; now left). apply IH. intros r Hr. apply H. now right. }
  apply H. intros q Hq. apply in_seq in Hq. lia.
Qed.

Lemma mstep_sel v v' w : sel v v' -> mstep num_n npts qt inv vt zt damp v w ->
  exists w', mstep num_n npts' qt' inv vt' zt' damp v' w' /\ sel w w'.
Proof.
  intros A [ij [js [E1 [E2 ->]]]]. destruct (Hqt v v' ij A E1) as [ij' [E1' S1]].
  assert (S2 := residual_sel v v' ij ij' A S1). destruct (inverse_sel v v' _ _ js A S2 E2) as [js' [E2' S3]].
  eexists. split; [exists ij', js'; split; [exact E1'|split; [exact E2'|reflexivity]]|].
  intros k i Hk Hi. unfold update. rewrite (A k i Hk Hi).
  now rewrite (corr_sel (fun j => nth j js (fun _ _ => 0%R)) (fun j => nth j js' (fun _ _ => 0%R)) _ _ k i S2 Hi (S3 i Hi)).
Qed.
Lemma msteps_sel n v w : msteps num_n npts qt inv vt zt damp n v w -> forall v', sel v v' ->
  exists w', msteps num_n npts' qt' inv vt' zt' damp n v' w' /\ sel w w'.
Proof.
  induction 1 as [v|n v v1 v2 H IH St]; intros v' A; [exists v'; split; [constructor|exact A]|].
  destruct (IH v' A) as [w1 [M S]]. destruct (mstep_sel v1 w1 v2 S St) as [w2 [St' S']]. exists w2. split; [econstructor; eassumption|exact S'].
Qed.
End Step.

Section Det.
Variables num_n npts : nat.
Variable qt : arr2 -> res arr2.
Variable inv : nat -> (nat -> nat -> R) -> option (nat -> nat -> R).
Variables vt zt : nat -> C.
Variable damp : R.
Notation step := (mstep num_n npts qt inv vt zt damp).
Notation steps := (msteps num_n npts qt inv vt zt damp).
Lemma mstep_det v w w' : step v w -> step v w' -> w = w'.
Proof. intros [ij [js [E1 [E2 ->]]]] [ij' [js' [E1' [E2' ->]]]]. rewrite E1 in E1'. injection E1' as <-. rewrite E2 in E2'. now injection E2' as <-. Qed.
Lemma msteps_det n : forall v w w', steps n v w -> steps n v w' -> w = w'.
Proof.
  induction n as [|n IH]; intros v w w' H H'; inversion H; inversion H'; subst; [reflexivity|].
  match goal with H1 : steps n v ?a, H2 : steps n v ?b |- _ => assert (a = b) by (eapply IH; eassumption); subst end. eapply mstep_det; eassumption.
Qed.
Lemma msteps_first n v w : steps (S n) v w -> exists v1, step v v1 /\ steps n v1 w.
Proof.
  revert v w. induction n as [|n IH]; intros v w H; inversion H as [|? ? v1 ? H1 St]; subst.
  - inversion H1; subst. exists w. split; [assumption|constructor].
  - destruct (IH _ _ H1) as [v2 [St' H2]]. exists v2. split; [assumption|]. econstructor; eassumption.
Qed.
(** A run with a target that nothing meets makes all its corrections. *)
Lemma newton_forced stop max_it ij w : (forall u iu, xle_r (rel_max num_n npts vt zt iu u) stop = true -> qt u = Ok iu -> False) ->
  qt w = Ok ij -> rel_max num_n npts vt zt ij w <> NaN ->
  forall n v j last, (j + Z.of_nat n = max_it)%Z -> steps n v w ->
  exists mask, newton num_n npts qt inv vt zt stop damp max_it (zrange j (max_it + 1)) v last = (w, Ok {| l_iter := max_it; l_mask := mask; l_why := HitLimit |}).
Proof.
  intros Hnever Ew Hnan. induction n as [|n IH]; intros v j last Hj H.
  - inversion H; subst. rewrite zrange_cons by lia. cbn [newton]. rewrite Ew. fold (rel_max num_n npts vt zt ij w).
    destruct (xle_r (rel_max num_n npts vt zt ij w) stop) eqn:E1; [exfalso; eauto|].
    assert (G : xgt_r (rel_max num_n npts vt zt ij w) stop = true).
    { destruct (xgt_r _ _) eqn:G; [reflexivity|]. exfalso. apply Hnan. now apply x_trichotomy with stop. }
    rewrite G. replace (j =? j + Z.of_nat 0)%Z with true by (symmetry; apply Z.eqb_eq; lia). cbn [andb]. eexists. f_equal. f_equal. f_equal. lia.
  - apply msteps_first in H. destruct H as [v1 [[iv [js [E1 [E2 ->]]]] H]]. rewrite zrange_cons by lia. cbn [newton]. rewrite E1.
    fold (rel_max num_n npts vt zt iv v). destruct (xle_r (rel_max num_n npts vt zt iv v) stop) eqn:E3; [exfalso; eauto|].
    replace (j =? max_it)%Z with false by (symmetry; apply Z.eqb_neq; lia). rewrite andb_false_r. rewrite E2. apply IH; [lia|exact H].
Qed.
End Det.

(** ** Calls *)
Section Calls.
Variable J : nat -> R -> R.
Variable inv : nat -> (nat -> nat -> R) -> option (nat -> nat -> R).
Hypothesis Hinv : reads_entries inv.
Variables (phi : nat -> nat) (c c' : hcct) (resp : R -> C) (num_b : numb).
Hypothesis Hpick : picks phi c c'.
Hypothesis Hs : simulates c num_b.
Hypothesis Hs' : simulates c' num_b.
Notation q := (h_q c).
Notation q' := (h_q c').

Lemma pick_current v v' f p i : (i < q_npts q')%nat -> everywhere q' (fun f p i => v' f p i = v f p (phi i)) ->
  current_at J q' resp num_b v' f p i = current_at J q resp num_b v f p (phi i).
Proof.
  destruct Hpick as [Ef [Ep [Eq [Eb _]]]]. intros Hi H. destruct (Eb i Hi) as [_ Evb]. unfold current_at. rewrite Evb, Eq, Ep.
  assert (Efs : freqs q' = freqs q). { unfold freqs. rewrite Ef. apply map_ext. intros g. apply Eq. }
  rewrite Efs. apply current_ext; [|reflexivity]. unfold tones. rewrite Ef. apply Forall2_map_seq. intros g Hg. unfold tone_of.
  split; [cbn [t_b]; reflexivity|]. intros k Hk. cbn [t_C]. rewrite ?Ef, ?Ep, ?Eq. apply phase_factor_ext. intros m n Hm.
  rewrite (H g m i); [reflexivity| |assumption]. split; [rewrite Ef|rewrite Ep]; lia.
Qed.

Notation P := (q_num_p q).
Notation n := (q_num_f q * q_num_p q)%nat.
Lemma pick_qt rm rm' v v' ij : interpolate_respfn q resp num_b = Ok rm -> interpolate_respfn q' resp num_b = Ok rm' ->
  (forall k i, (k < n)%nat -> (i < q_npts q')%nat -> v' k i = v k (phi i)) ->
  qt_current_for_hb J q resp num_b (Some rm) v = Ok ij ->
  exists ij', qt_current_for_hb J q' resp num_b (Some rm') v' = Ok ij' /\ forall k i, (k < n)%nat -> (i < q_npts q')%nat -> ij' k i = ij k (phi i).
Proof.
  intros ER ER' H E. apply sim_parts in Hs as X. destruct X as [Ha _]. apply sim_parts in Hs' as X. destruct X as [Ha' _].
  destruct (qt_for_hb J q resp num_b rm v Ha ER) as [ij0 [E0 H0]]. rewrite E in E0. injection E0 as <-.
  destruct (qt_for_hb J q' resp num_b rm' v' Ha' ER') as [ij' [E' H']]. exists ij'. split; [exact E'|].
  pose proof Hpick as [Ef [Ep [_ [Eb _]]]]. rewrite Ef, Ep in H'. intros k i Hk Hi. rewrite (H' k i Hk Hi), (H0 k (phi i) Hk (proj1 (Eb i Hi))).
  apply pick_current; [assumption|]. intros f p j [Hf Hp] Hj. rewrite Ef in Hf. rewrite Ep in Hp. rewrite !unflat_sig by lia. apply H; [|assumption].
  apply sig_k_bound; lia.
Qed.

Variables (vj0 vj0' : option arr3) (zj : C).
Hypothesis Hg : picks_guess phi q' vj0 vj0'.
Lemma pick_start f p i : signal q' f p -> (i < q_npts q')%nat -> start c' vj0' zj f p i = start c vj0 zj f p (phi i).
Proof.
  intros S I. pose proof Hpick as [Ef [Ep [Eq [Eb [Ev [Ez _]]]]]]. unfold start. unfold picks_guess in Hg.
  destruct vj0 as [g|], vj0' as [g'|]; try contradiction; [now apply Hg|]. now rewrite Ev, Ez.
Qed.

Variable damp : R.
Notation qt rm := (qt_current_for_hb J q resp num_b (Some rm)).
Notation qt' rm := (qt_current_for_hb J q' resp num_b (Some rm)).
Notation steps rm := (msteps n (q_npts q) (qt rm) inv (flat2 P (clamp_vt (h_vt c))) (flat2 P (h_zt c)) damp).
Notation steps' rm := (msteps n (q_npts q') (qt' rm) inv (flat2 P (clamp_vt (h_vt c'))) (flat2 P (h_zt c')) damp).
Lemma pick_steps rm rm' m g g' w : interpolate_respfn q resp num_b = Ok rm -> interpolate_respfn q' resp num_b = Ok rm' ->
  agree q (start c vj0 zj) g -> agree q' (start c' vj0' zj) g' ->
  steps rm m (flat3 P g) w -> exists w', steps' rm' m (flat3 P g') w' /\ forall k i, (k < n)%nat -> (i < q_npts q')%nat -> w' k i = w k (phi i).
Proof.
  intros ER ER' G G' H. pose proof Hpick as [Ef [Ep [Eq [Eb [Ev [Ez _]]]]]].
  refine (msteps_sel n (q_npts q) (q_npts q') (qt rm) (qt' rm') inv _ _ _ _ damp phi Hinv _ _ _ _ m _ _ H _ _).
  - intros i Hi. now apply Eb.
  - intros k _. unfold flat2, clamp_vt. now rewrite Ev.
  - intros k _. unfold flat2. apply Ez.
  - intros v v' ij. now apply pick_qt.
  - intros k i Hk Hi. unfold flat3. destruct (sig_range (q_num_f q) P k Hk) as [Hf Hp].
    assert (S : signal q (sig_f P k) (sig_p P k)) by (split; assumption). assert (S' : signal q' (sig_f P k) (sig_p P k)) by (split; [rewrite Ef|rewrite Ep]; assumption).
    rewrite <- (G' _ _ i S' Hi), <- (G _ _ (phi i) S (proj1 (Eb i Hi))). now apply pick_start.
Qed.

(** A run that reports convergence has made as many corrections as it says. *)
Lemma call_steps d resp' max_it stop g0 v it : simulates d num_b -> (0 <= max_it)%Z ->
  r_ret (harmonic_balance J inv d resp' num_b max_it stop g0 damp "x" zj) = Ok (RetX v it true) ->
  exists g rm w ij, agree (h_q d) (start d g0 zj) g /\ interpolate_respfn (h_q d) resp' num_b = Ok rm /\
    msteps (q_num_f (h_q d) * q_num_p (h_q d)) (q_npts (h_q d)) (qt_current_for_hb J (h_q d) resp' num_b (Some rm)) inv
      (flat2 (q_num_p (h_q d)) (clamp_vt (h_vt d))) (flat2 (q_num_p (h_q d)) (h_zt d)) damp (Z.to_nat it) (flat3 (q_num_p (h_q d)) g) w /\
    v = unflat (q_num_p (h_q d)) w /\ qt_current_for_hb J (h_q d) resp' num_b (Some rm) w = Ok ij /\ (0 <= it)%Z /\
    xle_r (rel_max (q_num_f (h_q d) * q_num_p (h_q d)) (q_npts (h_q d)) (flat2 (q_num_p (h_q d)) (clamp_vt (h_vt d))) (flat2 (q_num_p (h_q d)) (h_zt d)) ij w) stop = true.
Proof.
  intros Hd Hm H. apply sim_parts in Hd. destruct Hd as [Ha [Hp [Hz Hw]]]. apply hb_ok in H; [|assumption].
  destruct H as [_ [_ [g [rm [w [o [G [ER [L Hx]]]]]]]]]. apply ret_x in Hx. injection Hx as -> -> Hf.
  unfold hb_loop in L. apply run_ended in L; [|assumption]. destruct L as [m [M W]].
  exists g, rm, w. assert (Hne : l_iter o <> max_it) by (intros E; rewrite E, Z.eqb_refl in Hf; discriminate).
  destruct (l_why o).
  - destruct W as [ij [mask [E1 [E2 [E3 [E4 _]]]]]]. exists ij. rewrite E1. replace (Z.to_nat (0 + Z.of_nat m)) with m by lia. repeat split; auto. lia.
  - destruct W as [ij [mask [E1 [E2 _]]]]. contradiction.
  - destruct W as [E1 E2]. destruct m as [|m]; [lia|]. destruct E2 as [E2 _]. contradiction.
Qed.

(** Two runs that report the same number of corrections. *)
Lemma same_count max_it stop max_it' stop' v v' it : (0 <= max_it)%Z -> (0 <= max_it')%Z ->
  r_ret (harmonic_balance J inv c resp num_b max_it stop vj0 damp "x" zj) = Ok (RetX v it true) ->
  r_ret (harmonic_balance J inv c' resp num_b max_it' stop' vj0' damp "x" zj) = Ok (RetX v' it true) ->
  everywhere q' (fun f p i => v' f p i = v f p (phi i)).
Proof.
  intros Hm Hm' H H'. destruct (call_steps c resp max_it stop vj0 v it Hs Hm H) as [g [rm [w [ij [G [ER [M [-> _]]]]]]]].
  destruct (call_steps c' resp max_it' stop' vj0' v' it Hs' Hm' H') as [g' [rm' [w' [ij' [G' [ER' [M' [-> _]]]]]]]].
  pose proof Hpick as [Ef [Ep _]]. rewrite Ef, Ep in M'. destruct (pick_steps rm rm' _ g g' w ER ER' G G' M) as [w1 [M1 S1]].
  assert (w1 = w') by (eapply msteps_det; eassumption). subst w1.
  intros f p i [Hf Hp] Hi. rewrite Ef in Hf. rewrite Ep in *. rewrite !unflat_sig by lia. apply S1; [|assumption]. apply sig_k_bound; lia.
Qed.

Lemma never_met u iu rm : interpolate_respfn q' resp num_b = Ok rm -> qt' rm u = Ok iu ->
  xle_r (rel_max (q_num_f q' * q_num_p q') (q_npts q') (flat2 (q_num_p q') (clamp_vt (h_vt c'))) (flat2 (q_num_p q') (h_zt c')) iu u) (-1) = true -> False.
Proof.
  intros ER E H. apply sim_parts in Hs' as X. destruct X as [Ha [Hp _]].
  destruct (rel_max_le J c' resp num_b rm Ha ER u iu (-1) Hp E H) as [T _]. destruct (T 0%nat) as [U L]; [lia|]. apply U.
  set (r := residual_at J (clamped c') resp num_b _ _ _ _) in *. set (x := unflat _ _ _ _ _) in *.
  assert (A := Cmod_ge_0 r). assert (B := Cmod_ge_0 x). split; apply Cmod_eq_0; fold x; fold r; lra.
Qed.

(** The selection, given as many corrections. *)
Lemma same_corrections max_it stop v it : (0 <= max_it)%Z ->
  r_ret (harmonic_balance J inv c resp num_b max_it stop vj0 damp "x" zj) = Ok (RetX v it true) ->
  exists v', r_ret (harmonic_balance J inv c' resp num_b it (-1) vj0' damp "x" zj) = Ok (RetX v' it false) /\
  everywhere q' (fun f p i => v' f p i = v f p (phi i)).
Proof.
  intros Hm H. assert (H0 := H). destruct (call_steps c resp max_it stop vj0 v it Hs Hm H) as [g [rm [w [ij [G [ER [M [-> [Ew [Hit Hle]]]]]]]]]].
  apply sim_parts in Hs as X. destruct X as [Ha [Hp [Hz Hw]]]. apply sim_parts in Hs' as X. destruct X as [Ha' [Hp' [Hz' Hw']]].
  pose proof Hpick as [Ef [Ep [Eq [Eb [Ev [Ez _]]]]]].
  unfold harmonic_balance. pose proof Hz' as Hz2. apply all_zero_false in Hz2. rewrite Hz2, Hw'. cbn [negb].
  set (g' := match vj0' with Some a => Some a | None => default_guess q' (clamp_vt (h_vt c')) (h_zt c') zj end).
  assert (Hg' : exists a, g' = Some a /\ agree q' (start c' vj0' zj) a).
  { unfold g'. unfold picks_guess in Hg. destruct vj0' as [a|] eqn:E0; [exists a; split; [reflexivity|intros ? ? ? _ _; reflexivity]|].
    destruct vj0 as [|]; [contradiction|]. clear H0. revert H. unfold harmonic_balance. pose proof Hz as Hz3. apply all_zero_false in Hz3. rewrite Hz3, Hw. cbn [negb].
    unfold default_guess. rewrite Ef, Ep.
    assert (Efb : forallb (fun f => forallb (fun p => negb (Reqb (Cmod (Cplus zj (h_zt c' f p))) 0)) (seq 1 P)) (seq 1 (q_num_f q)) =
                  forallb (fun f => forallb (fun p => negb (Reqb (Cmod (Cplus zj (h_zt c f p))) 0)) (seq 1 P)) (seq 1 (q_num_f q))).
    { generalize (seq 1 (q_num_f q)). intros l. induction l as [|x l IH]; [reflexivity|]. cbn [forallb]. rewrite IH. f_equal.
      generalize (seq 1 P). intros l2. induction l2 as [|y l2 IH2]; [reflexivity|]. cbn [forallb]. now rewrite IH2, Ez. }
    rewrite Efb. destruct (forallb (fun f => forallb (fun p => negb (Reqb (Cmod (Cplus zj (h_zt c f p))) 0)) (seq 1 P)) (seq 1 (q_num_f q))); [|discriminate]. intros _. eexists. split; [reflexivity|]. intros f p i [Hf Hp2] Hi.
    unfold start. now rewrite clamp_source by lia. }
  destruct Hg' as [a [-> G']].
  destruct (matrix_built q' resp num_b Ha') as [rm' ER']. rewrite ER'.
  destruct (pick_steps rm rm' _ g a w ER ER' G G' M) as [w' [M' S]].
  destruct (pick_qt rm rm' w w' ij ER ER' S Ew) as [ij' [Ew' Sij]].
  assert (Hn : rel_max (q_num_f q' * q_num_p q') (q_npts q') (flat2 (q_num_p q') (clamp_vt (h_vt c'))) (flat2 (q_num_p q') (h_zt c')) ij' w' <> NaN).
  { intros E. apply (rel_max_nan J c' resp num_b rm' Ha' ER' w' ij' Hp' Ew') in E. destruct E as [i [Hi [U1 U2]]].
    destruct (rel_max_le J c resp num_b rm Ha ER w ij stop Hp Ew Hle) as [T _]. destruct (T (phi i)) as [U _]; [now apply Eb|]. apply U.
    assert (SU : everywhere q' (fun f p i => unflat P w' f p i = unflat P w f p (phi i))).
    { intros f p j [Hf Hp2] Hj. rewrite Ef in Hf. rewrite Ep in Hp2. rewrite !unflat_sig by lia. apply S; [|assumption]. apply sig_k_bound; lia. }
    assert (SL : signal q' (q_num_f q) (q_num_p q)) by (destruct Ha as [? [? _]]; split; [rewrite Ef|rewrite Ep]; lia).
    rewrite Ef, Ep in U1, U2. split; [rewrite <- U1; symmetry; now apply (SU _ _ i SL Hi)|].
    rewrite <- U2. unfold residual_at. cbn [clamped h_vt h_zt h_q]. rewrite (pick_current (unflat P w) (unflat P w') _ _ i Hi SU), (SU _ _ i SL Hi), Ez.
    unfold clamp_vt. now rewrite Ev. }
  rewrite Ef, Ep in *.
  destruct (newton_forced n (q_npts q') (qt' rm') inv (flat2 P (clamp_vt (h_vt c'))) (flat2 P (h_zt c')) damp (-1) it ij' w') with (n := Z.to_nat it) (v := flat3 P a) (j := 0%Z)
    (last := {| l_iter := 0; l_mask := None; l_why := RanOut |}) as [mask L]; try assumption; [|lia|].
  { intros u iu HU HQ. apply (never_met u iu rm' ER' HQ). rewrite Ef, Ep. exact HU. }
  unfold run_newton. rewrite L. cbn [r_ret bind l_iter]. cbn [String.eqb Ascii.eqb Bool.eqb]. rewrite Z.eqb_refl. cbn [negb].
  exists (unflat P w'). split; [reflexivity|]. intros f p i [Hf Hp2] Hi. rewrite Ef in Hf. rewrite Ep in *. rewrite !unflat_sig by lia. apply S; [|assumption]. apply sig_k_bound; lia.
Qed.
End Calls.
