(** The run of harmonic_balance ends within a computable number of corrections if the junction
    voltages hardly change the voltages across the embedding impedances. *)
From Coq Require Import List ZArith Lia Bool Arith Reals Lra String.
From Coquelicot Require Import Complex.
From Verif Require Import Base Sums Round Model_QtCurrent Spec_QtCurrent Spec_QtApi Proof_QtCurrent Proof_QtCurrent2 Proof_QtSym
  Proof_QtApi Proof_QtApi2 Model_Circuit Proof_Circuit Model_HB Spec_HB Spec_HB2 Spec_HBConv Proof_HB Proof_HB2 Proof_HB3 Proof_HB4 Proof_HB5 Proof_HB8 Proof_HB9 Proof_HB10 Proof_HBConv.
Import ListNotations.
Local Notation length := List.length.
Open Scope R_scope.

Lemma mapM_total {A B} (f : A -> res B) l : (forall x, In x l -> exists y, f x = Ok y) -> exists ys, mapM f l = Ok ys.
Proof.
  induction l as [|a l IH]; intros H; [exists []; reflexivity|]. destruct (H a (or_introl eq_refl)) as [y E]. destruct IH as [ys E2]; [intros x X; apply H; now right|]. exists (y :: ys). cbn [mapM]. rewrite E. cbn [bind]. rewrite E2. reflexivity.
Qed.

(** ** The Jacobian can be inverted *)
Section Loop.
Variables num_n npts : nat.
Variable qt : arr2 -> res arr2.
Variable inv : nat -> (nat -> nat -> R) -> option (nat -> nat -> R).
Variables vt zt : nat -> C.
Variables stop damp : R.
Variable max_it : Z.
Hypothesis inv_some : forall n M, (exists N, right_inverse n M N) -> exists N, inv n M = Some N.
Hypothesis qt_total : forall v, exists ij, qt v = Ok ij.

Definition cur (w : arr2) : arr2 := match qt w with Ok a => a | Err _ => fun _ _ => RtoC 0 end.
Lemma cur_eq w : qt w = Ok (cur w).
Proof. unfold cur. destruct (qt_total w) as [a E]. now rewrite E. Qed.
Definition change (v : arr2) (z : nat -> C) (p i : nat) : C := csum (seq 0 num_n) (fun q =>
  Cplus (Cmult (RtoC (Re (z q))) (Cdiv (Cminus (residual vt zt (cur (bump (RtoC 1) q v)) (bump (RtoC 1) q v) p i) (residual vt zt (cur v) v p i)) (RtoC DV)))
        (Cmult (RtoC (Im (z q))) (Cdiv (Cminus (residual vt zt (cur (bump Ci q v)) (bump Ci q v) p i) (residual vt zt (cur v) v p i)) (RtoC DV)))).
Lemma jacobian_inverts v : (forall i z, (i < npts)%nat -> (forall p, (p < num_n)%nat -> change v z p i = RtoC 0) -> forall p, (p < num_n)%nat -> z p = RtoC 0) ->
  exists js, inv_jacobian num_n npts qt inv vt zt (residual vt zt (cur v) v) v = Ok js.
Proof.
  intros K. set (err := residual vt zt (cur v) v). unfold inv_jacobian, jacobian.
  set (colf := fun q => let* ij_re := qt (bump (RtoC 1) q v) in let* ij_im := qt (bump Ci q v) in Ok (residual vt zt ij_re (bump (RtoC 1) q v), residual vt zt ij_im (bump Ci q v))).
  destruct (mapM_total colf (seq 0 num_n)) as [cols Ec]; [intros q _; unfold colf; rewrite (cur_eq (bump (RtoC 1) q v)), (cur_eq (bump Ci q v)); eexists; reflexivity|].
  rewrite Ec. cbn [bind]. apply mapM_nth in Ec. destruct Ec as [_ Ec].
  assert (Hcol : forall q, (q < num_n)%nat -> nth_error cols q = Some (residual vt zt (cur (bump (RtoC 1) q v)) (bump (RtoC 1) q v), residual vt zt (cur (bump Ci q v)) (bump Ci q v))).
  { intros q Hq. destruct (Ec q q (nth_error_seq _ _ Hq)) as [y [Hy E]]. unfold colf in E. rewrite (cur_eq (bump (RtoC 1) q v)), (cur_eq (bump Ci q v)) in E. cbn [bind] in E. injection E as <-. exact Hy. }
  apply mapM_total. intros i Hi. apply in_seq in Hi. match goal with |- context [inv _ ?m] => set (M := m) end.
  destruct (inv_some (2 * num_n) M) as [N EN]; [|rewrite EN; eexists; reflexivity]. apply inverse_exists. intros y Hy.
  assert (HM : forall a q s, (q < num_n)%nat -> (s < 2)%nat -> M a (q * 2 + s)%nat =
     jac_entry err (residual vt zt (cur (bump (RtoC 1) q v)) (bump (RtoC 1) q v)) (residual vt zt (cur (bump Ci q v)) (bump Ci q v)) (a / 2) i (a mod 2) s).
  { intros a q s Hq Hs. unfold M. cbv beta. destruct (split_two q s Hs) as [-> ->]. now rewrite (Hcol q Hq). }
  set (z := fun q => (y (q * 2)%nat, y (q * 2 + 1)%nat) : C).
  assert (Z : forall p, (p < num_n)%nat -> change v z p i = RtoC 0).
  { intros p Hp. unfold change. fold err. apply C_ext.
    - rewrite Re_csum_to. change (Re (RtoC 0)) with 0. rewrite <- (Hy (p * 2 + 0)%nat ltac:(lia)), rsum_to_double. apply rsum_to_ext. intros q Hq. pose proof (HM (p * 2 + 0)%nat q 0%nat Hq ltac:(lia)) as A0. rewrite (Nat.add_0_r (q * 2)) in A0. rewrite A0, (HM _ q 1%nat) by lia. destruct (split_two p 0) as [-> ->]; [lia|]. unfold jac_entry, z. cbn [Nat.eqb]. unfold Re, Im, Cplus, Cmult, RtoC. cbn [fst snd]. ring.
    - rewrite Im_csum_to. change (Im (RtoC 0)) with 0. rewrite <- (Hy (p * 2 + 1)%nat ltac:(lia)), rsum_to_double. apply rsum_to_ext. intros q Hq. pose proof (HM (p * 2 + 1)%nat q 0%nat Hq ltac:(lia)) as A0. rewrite (Nat.add_0_r (q * 2)) in A0. rewrite A0, (HM _ q 1%nat) by lia. destruct (split_two p 1) as [-> ->]; [lia|]. unfold jac_entry, z. cbn [Nat.eqb]. unfold Re, Im, Cplus, Cmult, RtoC. cbn [fst snd]. ring. }
  intros j Hj. assert (J2 : (j / 2 < num_n)%nat) by (apply Nat.div_lt_upper_bound; lia). specialize (K i z ltac:(lia) Z _ J2). unfold z in K. apply pair_equal_spec in K. destruct K as [K1 K2].
  pose proof (Nat.div_mod j 2 ltac:(lia)) as E. pose proof (Nat.mod_upper_bound j 2 ltac:(lia)) as B. destruct (Nat.eq_dec (j mod 2) 0) as [E0|E0].
  - replace j with (j / 2 * 2)%nat by lia. exact K1.
  - replace j with (j / 2 * 2 + 1)%nat by lia. exact K2.
Qed.

(** The loop stops at step N at the latest if from then on the target is met. *)
Hypothesis step_total : forall v, exists js, inv_jacobian num_n npts qt inv vt zt (residual vt zt (cur v) v) v = Ok js.
Lemma newton_stops N v0 : (Z.of_nat N < max_it)%Z ->
  (forall v, msteps num_n npts qt inv vt zt damp N v0 v -> xle_r (rel_max num_n npts vt zt (cur v) v) stop = true) ->
  forall j n v last, (n + j = N)%nat -> msteps num_n npts qt inv vt zt damp n v0 v ->
  exists v' o m, newton num_n npts qt inv vt zt stop damp max_it (zrange (Z.of_nat n) (max_it + 1)) v last = (v', Ok o) /\ l_iter o = Z.of_nat m /\ (m <= N)%nat /\ msteps num_n npts qt inv vt zt damp m v0 v'.
Proof.
  intros HM HT. induction j as [|j IH]; intros n v last E MS; rewrite zrange_cons by lia; cbn [newton]; rewrite (cur_eq v); fold (rel_max num_n npts vt zt (cur v) v).
  - assert (n = N) by lia. subst n. rewrite (HT v MS). do 3 eexists. split; [reflexivity|]. cbn [l_iter]. split; [reflexivity|]. split; [lia|exact MS].
  - destruct (xle_r (rel_max num_n npts vt zt (cur v) v) stop). { do 3 eexists. split; [reflexivity|]. cbn [l_iter]. split; [reflexivity|]. split; [lia|exact MS]. }
    destruct (Z.eqb_spec (Z.of_nat n) max_it) as [EM|_]; [lia|]. rewrite andb_false_r. destruct (step_total v) as [js EJ]. rewrite EJ. replace (Z.of_nat n + 1)%Z with (Z.of_nat (S n)) by lia.
    apply IH; [lia|]. econstructor; [exact MS|]. exists (cur v), js. split; [apply cur_eq|]. split; [exact EJ|reflexivity].
Qed.
End Loop.

(** ** The call *)
Section Call.
Variable J : nat -> R -> R.
Variable inv : nat -> (nat -> nat -> R) -> option (nat -> nat -> R).
Variables (c : hcct) (resp : R -> C) (num_b : numb).
Local Notation q := (h_q c).
Local Notation P := (q_num_p q).
Local Notation n := (q_num_f q * q_num_p q)%nat.
Local Notation vt2 := (flat2 P (clamp_vt (h_vt c))).
Local Notation zt2 := (flat2 P (h_zt c)).
Variable k : R.
Hypothesis Ha : args_ok q num_b.
Hypothesis INV : inverts inv.
Hypothesis F : follows J (clamped c) resp num_b k.
Hypothesis K : 0 <= k < 1 / 4.

Lemma change_linear rm v z p i : interpolate_respfn q resp num_b = Ok rm -> (p < n)%nat -> (i < q_npts q)%nat ->
  change n (qt_current_for_hb J q resp num_b (Some rm)) vt2 zt2 v z p i = linear J (clamped c) resp num_b (unflat P v) (unflat P (fun k _ => z k)) i (sig_f P p) (sig_p P p).
Proof.
  intros ER Hp Hi. pose proof (HP1 c num_b Ha) as P1. cbv zeta in P1. set (qt := qt_current_for_hb J q resp num_b (Some rm)). assert (QT : forall w, exists ij, qt w = Ok ij) by (intros w; destruct (qt_for_hb J q resp num_b rm w Ha ER) as [ij [E _]]; eauto).
  assert (CQ : forall w, qt w = Ok (cur qt w)) by (intros; now apply cur_eq). destruct (sig_range (q_num_f q) P p Hp) as [Hf Hp'].
  unfold change, linear, ssum. rewrite csum_signals. cbn [h_q clamped]. apply csum_ext. intros g Hg. apply in_seq in Hg. apply csum_ext. intros m Hm. apply in_seq in Hm.
  assert (Hs' : signal q g m) by (split; lia). rewrite !unflat_sig by lia. change (sig_k P g m) with (sig_k P g m).
  rewrite (qt_residual J c resp num_b rm Ha ER v (cur qt v) p i (CQ v) Hp Hi).
  rewrite (qt_residual J c resp num_b rm Ha ER _ _ p i (CQ (bump (RtoC 1) (sig_k P g m) v)) Hp Hi), (qt_residual J c resp num_b rm Ha ER _ _ p i (CQ (bump Ci (sig_k P g m) v)) Hp Hi).
  rewrite (residual_at_ext J (clamped c) resp num_b _ _ (bump_bumped c (RtoC 1) v g m (RtoC (/ 10 ^ 3)) Hs' ltac:(unfold DV; ring)) (sig_f P p) (sig_p P p) i (conj Hf Hp') Hi).
  rewrite (residual_at_ext J (clamped c) resp num_b _ _ (bump_bumped c Ci v g m (Cmult Ci (RtoC (/ 10 ^ 3))) Hs' ltac:(unfold DV; ring)) (sig_f P p) (sig_p P p) i (conj Hf Hp') Hi).
  unfold DV. reflexivity.
Qed.
Lemma every_step rm v : interpolate_respfn q resp num_b = Ok rm ->
  exists js, inv_jacobian n (q_npts q) (qt_current_for_hb J q resp num_b (Some rm)) inv vt2 zt2 (residual vt2 zt2 (cur (qt_current_for_hb J q resp num_b (Some rm)) v) v) v = Ok js.
Proof.
  intros ER. pose proof (HP1 c num_b Ha) as P1. cbv zeta in P1. apply jacobian_inverts; [exact (proj2 INV)|intros w; destruct (qt_for_hb J q resp num_b rm w Ha ER) as [ij [E _]]; eauto|].
  intros i z Hi Z p Hp. destruct (sig_range (q_num_f q) P p Hp) as [Hf Hp'].
  pose proof (linear_injective J (clamped c) resp num_b k F (unflat P v) (unflat P (fun k _ => z k)) i Hi ltac:(lra)) as L.
  assert (L2 : unflat P (fun k _ => z k) (sig_f P p) (sig_p P p) i = RtoC 0); [|rewrite unflat_k in L2 by lia; exact L2].
  apply L; [|split; assumption]. intros f r [Sf Sr]. change (h_q (clamped c)) with q in Sf, Sr. specialize (Z (sig_k P f r) (sig_k_bound (q_num_f q) P f r Sf Sr)). rewrite change_linear in Z by (try assumption; apply sig_k_bound; assumption).
  destruct (sig_k_fp P f r) as [E1 E2]; [lia|assumption|]. rewrite E1, E2 in Z. exact Z.
Qed.
Lemma left_pow d m v w i : (i < q_npts q)%nat -> 0 < d <= 1 -> corrections J (clamped c) resp num_b d m v w -> imbalance J (clamped c) resp num_b w i <= left_over k d ^ m * imbalance J (clamped c) resp num_b v i.
Proof.
  intros Hi D H. induction H as [v w A|m v v1 v2 H IH CO].
  - rewrite pow_O, Rmult_1_l. right. unfold imbalance. apply total_ext. intros f p S. f_equal. symmetry. now apply (residual_at_ext J (clamped c) resp num_b v w A).
  - pose proof (contracts J (clamped c) resp num_b k F d v1 v2 i Hi K ltac:(lra) CO) as B. destruct (left_over_bound k d K D) as [L0 L1].
    eapply Rle_trans; [exact B|]. cbn [pow]. rewrite Rmult_assoc. apply Rmult_le_compat_l; assumption.
Qed.

Theorem run_converges d s vj0 zj mu N : simulates c num_b -> 0 < d <= 1 -> can_start c vj0 zj -> solution J (clamped c) resp num_b s -> 0 < mu -> everywhere q (fun f p i => 2 * mu <= Cmod (s f p i)) ->
  forall stop, 0 < stop -> (forall i, (i < q_npts q)%nat -> left_over k d ^ N * imbalance J (clamped c) resp num_b (start c vj0 zj) i <= Rmin stop (1 - k) * mu) ->
  forall max_it, (Z.of_nat N < max_it)%Z -> exists v m, r_ret (harmonic_balance J inv c resp num_b max_it stop vj0 d "x" zj) = Ok (RetX v (Z.of_nat m) true) /\ (m <= N)%nat /\
    corrections J (clamped c) resp num_b d m (start c vj0 zj) v.
Proof.
  intros HS D CS SOL MU HMU stop ST HN max_it HM. apply sim_parts in HS. destruct HS as [_ [Hp [Hz Hw]]]. pose proof (HP1 c num_b Ha) as P1. cbv zeta in P1.
  destruct (interpolate_respfn q resp num_b) as [rm|e] eqn:ER; [|exfalso; destruct (matrix_built q resp num_b Ha) as [rm E]; congruence].
  assert (G : exists g, (match vj0 with Some a => Some a | None => default_guess q (clamp_vt (h_vt c)) (h_zt c) zj end) = Some g /\ agree q (start c vj0 zj) g).
  { destruct vj0 as [a|]; [exists a; split; [reflexivity|intros f p i _ _; reflexivity]|]. destruct CS as [CS|CS]; [now exfalso|]. unfold default_guess. rewrite (proj2 (forallb_forall _ _)).
    - eexists. split; [reflexivity|]. intros f p i [Hf Hp'] Hi. unfold start. rewrite clamp_source by lia. reflexivity.
    - intros f Hf. apply in_seq in Hf. apply forallb_forall. intros p Hp'. apply in_seq in Hp'. unfold Reqb. destruct (Req_EM_T _ 0) as [E|E]; [|reflexivity]. exfalso. apply (CS f p); [split; lia|]. now apply Cmod_eq_0. }
  destruct G as [g [EG AG]]. set (qt := qt_current_for_hb J q resp num_b (Some rm)). assert (QT : forall w, exists ij, qt w = Ok ij) by (intros w; destruct (qt_for_hb J q resp num_b rm w Ha ER) as [ij [E _]]; eauto).
  assert (MC : forall m w, msteps n (q_npts q) qt inv vt2 zt2 d m (flat3 P g) w -> corrections J (clamped c) resp num_b d m (start c vj0 zj) (unflat P w)).
  { intros m w H. apply corrections_start with g; [assumption|]. eapply msteps_corrections; eauto. exact (proj1 INV). }
  assert (TGT : forall w, msteps n (q_npts q) qt inv vt2 zt2 d N (flat3 P g) w -> xle_r (rel_max n (q_npts q) vt2 zt2 (cur qt w) w) stop = true).
  { intros w H. apply MC in H.
    assert (IM : forall i, (i < q_npts q)%nat -> imbalance J (clamped c) resp num_b (unflat P w) i <= Rmin stop (1 - k) * mu) by (intros i Hi; eapply Rle_trans; [exact (left_pow d N _ _ i Hi D H)|exact (HN i Hi)]).
    assert (LOW : everywhere q (fun f p i => mu <= Cmod (unflat P w f p i))).
    { intros f p i SG Hi. pose proof (near_solution J (clamped c) resp num_b k F (unflat P w) s i Hi ltac:(lra) SOL) as NS. specialize (IM i Hi).
      assert (DB : distance q (unflat P w) s i <= mu). { apply Rmult_le_reg_l with (1 - k); [lra|]. eapply Rle_trans; [exact NS|]. eapply Rle_trans; [exact IM|]. apply Rmult_le_compat_r; [lra|apply Rmin_r]. }
      pose proof (total_term q (fun f p => Cmod (unflat P w f p i - s f p i)%C) f p (fun _ _ _ => Cmod_ge_0 _) SG) as T. cbv beta in T. fold (distance q (unflat P w) s i) in T. specialize (HMU f p i SG Hi). cbv beta in HMU.
      assert (TR : Cmod (s f p i) <= Cmod (unflat P w f p i) + Cmod (unflat P w f p i - s f p i)%C). { replace (s f p i) with (unflat P w f p i + - (unflat P w f p i - s f p i))%C at 1 by ring. eapply Rle_trans; [apply Cmod_triangle|]. rewrite Cmod_opp. lra. }
      lra. }
    apply (rel_max_le_back J c resp num_b rm Ha ER w (cur qt w) stop Hp ltac:(lra)); [now apply cur_eq| |].
    - intros f p i SG Hi E. specialize (LOW f p i SG Hi). cbv beta in LOW. rewrite E, Cmod_0 in LOW. lra.
    - intros f p i SG Hi. change (h_q (clamped c)) with q in *. specialize (LOW f p i SG Hi). cbv beta in LOW. specialize (IM i Hi). pose proof (total_term q (fun f p => Cmod (residual_at J (clamped c) resp num_b (unflat P w) f p i)) f p (fun _ _ _ => Cmod_ge_0 _) SG) as T. cbv beta in T.
      change (total q (fun f p => Cmod (residual_at J (clamped c) resp num_b (unflat P w) f p i))) with (imbalance J (clamped c) resp num_b (unflat P w) i) in T.
      eapply Rle_trans; [exact T|]. eapply Rle_trans; [exact IM|]. apply Rle_trans with (stop * mu); [apply Rmult_le_compat_r; [lra|apply Rmin_l]|]. apply Rmult_le_compat_l; lra. }
  destruct (newton_stops n (q_npts q) qt inv vt2 zt2 stop d max_it QT (fun w => every_step rm w ER) N (flat3 P g) HM TGT N 0%nat (flat3 P g) {| l_iter := 0; l_mask := None; l_why := RanOut |} eq_refl (M0 _ _ _ _ _ _ _ _)) as (v & o & m & EN & EI & ML & MS).
  exists (unflat P v), m. split; [|split; [exact ML|exact (MC m v MS)]].
  apply all_zero_false in Hz. unfold harmonic_balance. rewrite Hz, Hw. cbn [negb]. rewrite EG, ER. unfold run_newton. fold qt. change (Z.of_nat 0) with 0%Z in EN. rewrite EN. cbn [r_ret bind]. cbn [String.eqb Ascii.eqb Bool.eqb]. rewrite EI. destruct (Z.eqb_spec (Z.of_nat m) max_it) as [E|_]; [lia|]. reflexivity.
Qed.
End Call.
