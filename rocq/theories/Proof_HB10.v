(** The corrections that harmonic_balance makes are the only solutions of their equations. *)
From Coq Require Import List ZArith Lia Bool Arith Reals Lra String Permutation.
From Coquelicot Require Import Complex.
From Verif Require Import Base Sums Round Model_QtCurrent Spec_QtCurrent Spec_QtApi Proof_QtCurrent Proof_QtCurrent2 Proof_QtSym
  Proof_QtApi Proof_QtApi2 Model_Circuit Proof_Circuit Model_HB Spec_HB Spec_HB2 Proof_HB Proof_HB2 Proof_HB3 Proof_HB4 Proof_HB5 Proof_HB8 Proof_HB9.
Import ListNotations.
Local Notation length := List.length.
Open Scope C_scope.

Section Step.
Variables num_n npts : nat.
Variable qt : arr2 -> res arr2.
Variable inv : nat -> (nat -> nat -> R) -> option (nat -> nat -> R).
Variables vt zt : nat -> C.
Variables damp : R.
Hypothesis inv_right : forall n M N, inv n M = Some N -> right_inverse n M N.

Lemma newton_eq_unique v v' x x' : mstep num_n npts qt inv vt zt damp v v' -> newton_eq num_n npts qt vt zt v x -> newton_eq num_n npts qt vt zt v x' ->
  forall k i, (k < num_n)%nat -> (i < npts)%nat -> x k i = x' k i.
Proof.
  intros [ij [js [Eq [Ej _]]]] [ij0 [ire [iim [E0 [Eb Hx]]]]] [ij1 [ire1 [iim1 [E1 [Eb1 Hx1]]]]].
  rewrite Eq in E0, E1. injection E0 as <-. injection E1 as <-. set (err := residual vt zt ij v) in *.
  unfold inv_jacobian in Ej. apply bind_ok in Ej. destruct Ej as [jac [Ejac Ej]].
  unfold jacobian in Ejac. apply bind_ok in Ejac. destruct Ejac as [cols [Ec Ejac]].
  apply (f_equal (fun r => match r with Ok x => x | Err _ => jac end)) in Ejac. cbv beta iota in Ejac. subst jac.
  apply mapM_nth in Ec. destruct Ec as [_ Ec]. apply mapM_nth in Ej. destruct Ej as [_ Ej].
  intros k i Hk Hi. destruct (Ej i i (nth_error_seq _ _ Hi)) as [N [HN E]].
  match type of E with context [inv _ ?m] => set (M := m) in * end.
  destruct (inv (2 * num_n) M) as [N'|] eqn:Einv; [|discriminate]. apply inv_right in Einv. clear E HN N.
  assert (Hcol : forall q, (q < num_n)%nat -> nth_error cols q = Some (residual vt zt (ire q) (bump (RtoC 1) q v), residual vt zt (iim q) (bump Ci q v))).
  { intros q Hq. destruct (Ec q q (nth_error_seq _ _ Hq)) as [y [Hy E]]. destruct (Eb q Hq) as [-> E2] in E. cbn [bind] in E. rewrite E2 in E. cbn [bind] in E. injection E as <-. exact Hy. }
  assert (HM : forall a q s, (q < num_n)%nat -> (s < 2)%nat -> M a (q * 2 + s)%nat =
     jac_entry err (residual vt zt (ire q) (bump (RtoC 1) q v)) (residual vt zt (iim q) (bump Ci q v)) (a / 2) i (a mod 2) s).
  { intros a q s Hq Hs. unfold M. cbv beta. destruct (split_two q s Hs) as [-> ->]. now rewrite (Hcol q Hq). }
  assert (Sys : forall z, (forall p, (p < num_n)%nat ->
      csum (seq 0 num_n) (fun q =>
      Cplus (Cmult (RtoC (Re (z q))) (Cdiv (Cminus (residual vt zt (ire q) (bump (RtoC 1) q v) p i) (err p i)) (RtoC DV)))
            (Cmult (RtoC (Im (z q))) (Cdiv (Cminus (residual vt zt (iim q) (bump Ci q v) p i) (err p i)) (RtoC DV))))
      = Copp (err p i)) -> forall a, (a < 2 * num_n)%nat ->
      rsum_to (2 * num_n) (fun b => M a b * (if (b mod 2 =? 0)%nat then Re (z (b / 2)%nat) else Im (z (b / 2)%nat)))%R =
      (- (if (a mod 2 =? 0)%nat then Re (err (a / 2)%nat i) else Im (err (a / 2)%nat i)))%R).
  { intros z Hz a Ha. assert (Ha2 : (a / 2 < num_n)%nat) by (apply Nat.div_lt_upper_bound; lia). specialize (Hz _ Ha2).
    rewrite rsum_to_double. assert (Hr := half a).
    rewrite (rsum_to_ext num_n _ (fun q => M a (q * 2 + 0)%nat * Re (z q) + M a (q * 2 + 1)%nat * Im (z q))%R).
    2:{ intros q _. destruct (split_two q 1) as [-> ->]; [lia|]. rewrite Nat.add_0_r, Nat.div_mul, Nat.mod_mul by lia. reflexivity. }
    rewrite (rsum_to_ext num_n _ (fun q => jac_entry err (residual vt zt (ire q) (bump (RtoC 1) q v)) (residual vt zt (iim q) (bump Ci q v)) (a / 2) i (a mod 2) 0 * Re (z q) +
      jac_entry err (residual vt zt (ire q) (bump (RtoC 1) q v)) (residual vt zt (iim q) (bump Ci q v)) (a / 2) i (a mod 2) 1 * Im (z q))%R) by (intros q Hq; rewrite !HM by lia; reflexivity).
    unfold jac_entry. destruct (Nat.eqb_spec (a mod 2) 0) as [Z|Z]; cbn [Nat.eqb].
    - apply (f_equal Re) in Hz. rewrite Re_csum_to in Hz. change (Re (Copp (err (a / 2)%nat i))) with (- Re (err (a / 2)%nat i))%R in Hz. rewrite <- Hz.
      apply rsum_to_ext. intros q _. unfold Cplus, Cmult, RtoC, Re, Im. cbn [fst snd]. ring.
    - apply (f_equal Im) in Hz. rewrite Im_csum_to in Hz. change (Im (Copp (err (a / 2)%nat i))) with (- Im (err (a / 2)%nat i))%R in Hz. rewrite <- Hz.
      apply rsum_to_ext. intros q _. unfold Cplus, Cmult, RtoC, Re, Im. cbn [fst snd]. ring. }
  assert (S0 := Sys (fun q => x q i) (fun p Hp => Hx p i Hp Hi)).
  assert (S1 : forall a, (a < 2 * num_n)%nat -> rsum_to (2 * num_n) (fun b => M a b * (if (b mod 2 =? 0)%nat then Re (x' (b / 2)%nat i) else Im (x' (b / 2)%nat i)))%R =
      (- (if (a mod 2 =? 0)%nat then Re (err (a / 2)%nat i) else Im (err (a / 2)%nat i)))%R).
  { apply (Sys (fun q => x' q i)). intros p Hp. rewrite <- (Hx1 p i Hp Hi). apply csum_ext. intros q Hq. apply in_seq in Hq.
    destruct (Eb q ltac:(lia)) as [F1 F2]. destruct (Eb1 q ltac:(lia)) as [G1 G2]. rewrite F1 in G1. rewrite F2 in G2. injection G1 as ->. injection G2 as ->. reflexivity. }
  assert (K := right_inverse_kernel _ M N' (fun b => if (b mod 2 =? 0)%nat then Re (x (b / 2)%nat i) - Re (x' (b / 2)%nat i) else Im (x (b / 2)%nat i) - Im (x' (b / 2)%nat i))%R Einv).
  assert (K0 := K). clear K. match type of K0 with ?A -> _ => assert (HK : A) end.
  { intros a Ha. rewrite (rsum_to_ext _ _ (fun b => M a b * (if (b mod 2 =? 0)%nat then Re (x (b / 2)%nat i) else Im (x (b / 2)%nat i)) +
      (-1) * (M a b * (if (b mod 2 =? 0)%nat then Re (x' (b / 2)%nat i) else Im (x' (b / 2)%nat i))))%R) by (intros b _; destruct (b mod 2 =? 0)%nat; ring).
    rewrite rsum_to_plus, rsum_to_scal. rewrite (S0 a Ha), (S1 a Ha). ring. }
  specialize (K0 HK). assert (A := K0 (k * 2 + 0)%nat ltac:(lia)). assert (B := K0 (k * 2 + 1)%nat ltac:(lia)). cbv beta in A, B.
  destruct (split_two k 0) as [E2 E3]; [lia|]. destruct (split_two k 1) as [E4 E5]; [lia|]. rewrite E2, E3 in A. rewrite E4, E5 in B. cbn [Nat.eqb] in A, B.
  apply C_ext; lra.
Qed.
End Step.

Section OneCircuit.
Variable J : nat -> R -> R.
Variable inv : nat -> (nat -> nat -> R) -> option (nat -> nat -> R).
Hypothesis inv_right : forall n M N, inv n M = Some N -> right_inverse n M N.
Variables (c : hcct) (resp : R -> C) (num_b : numb) (rm : respmat) (damp : R).
Hypothesis Ha : args_ok (h_q c) num_b.
Hypothesis ER : interpolate_respfn (h_q c) resp num_b = Ok rm.
Notation q := (h_q c).
Notation P := (q_num_p q).
Notation n := (q_num_f q * q_num_p q)%nat.
Notation qt := (qt_current_for_hb J q resp num_b (Some rm)).
Notation vt2 := (flat2 P (clamp_vt (h_vt c))).
Notation zt2 := (flat2 P (h_zt c)).

Lemma correction_eq v x : newton_correction J (clamped c) resp num_b (unflat P v) x -> newton_eq n (q_npts q) qt vt2 zt2 v (flat3 P x).
Proof.
  intros H. assert (Q : forall u, exists ij, qt u = Ok ij) by (intros u; destruct (qt_for_hb J q resp num_b rm u Ha ER) as [ij [E _]]; eauto).
  set (cur := fun u => match qt u with Ok a => a | Err _ => fun _ _ => RtoC 0 end).
  assert (Hc : forall u, qt u = Ok (cur u)) by (intros u; unfold cur; destruct (Q u) as [ij ->]; reflexivity).
  exists (cur v), (fun k => cur (bump (RtoC 1) k v)), (fun k => cur (bump Ci k v)). split; [apply Hc|]. split; [intros k _; split; apply Hc|].
  intros k i Hk Hi. destruct (sig_range (q_num_f q) P k Hk) as [Hf Hp]. set (f := sig_f P k) in *. set (p := sig_p P k) in *.
  assert (Hs : signal q f p) by (split; assumption). specialize (H f p i Hs Hi). cbv zeta in H.
  assert (HP : (1 <= P)%nat) by (destruct Ha as [_ [X _]]; exact X).
  assert (Ek : k = sig_k P f p) by (unfold f, p; now rewrite sig_fp_k). rewrite Ek.
  rewrite (qt_residual_fp J c resp num_b rm Ha ER v (cur v) f p i (Hc v) Hs Hi). rewrite <- H. cbn [h_q clamped]. rewrite csum_signals.
  apply csum_ext. intros g Hg. apply in_seq in Hg. apply csum_ext. intros r Hr. apply in_seq in Hr.
  assert (Hs' : signal q g r) by (split; lia). unfold flat3. destruct (sig_k_fp P g r) as [-> ->]; [lia|lia|].
  rewrite (qt_residual_fp J c resp num_b rm Ha ER _ _ f p i (Hc (bump (RtoC 1) (sig_k P g r) v)) Hs Hi), (qt_residual_fp J c resp num_b rm Ha ER _ _ f p i (Hc (bump Ci (sig_k P g r) v)) Hs Hi).
  rewrite (residual_at_ext J (clamped c) resp num_b _ _ (bump_bumped c (RtoC 1) v g r (RtoC (/ 10 ^ 3)) Hs' ltac:(unfold DV; ring)) f p i Hs Hi).
  rewrite (residual_at_ext J (clamped c) resp num_b _ _ (bump_bumped c Ci v g r (Ci * RtoC (/ 10 ^ 3)) Hs' ltac:(unfold DV; ring)) f p i Hs Hi).
  unfold DV. reflexivity.
Qed.

Lemma mstep_unique v v' w : mstep n (q_npts q) qt inv vt2 zt2 damp v v' -> corrected J (clamped c) resp num_b damp (unflat P v) w -> agree q (unflat P v') w.
Proof.
  intros St [x [Hx Hw]]. assert (Hx' := correction_eq v x Hx). destruct (mstep_newton n (q_npts q) qt inv vt2 zt2 damp inv_right v v' St) as [y [Hy Ev]].
  intros f p i Hs Hi. pose proof Hs as [Hf Hp]. rewrite (Hw f p i Hs Hi). rewrite !unflat_sig by lia. rewrite Ev. f_equal. f_equal.
  rewrite (newton_eq_unique n (q_npts q) qt inv vt2 zt2 damp inv_right v v' y (flat3 P x) St Hy Hx' (sig_k P f p) i (sig_k_bound _ _ f p Hf Hp) Hi).
  unfold flat3. now destruct (sig_k_fp P f p) as [-> ->]; [lia|lia|].
Qed.
Lemma msteps_unique m g v : msteps n (q_npts q) qt inv vt2 zt2 damp m (flat3 P g) v -> forall u, corrections J (clamped c) resp num_b damp m g u -> agree q (unflat P v) u.
Proof.
  intros H. remember (flat3 P g) as v0. induction H as [v|m v v1 v2 H IH St]; intros u Hu; subst.
  - inversion Hu as [? ? A|]; subst. apply agree_trans with g; [|exact A]. intros f p i [Hf Hp] Hi. apply unflat_flat; [lia|assumption].
  - inversion Hu as [|? ? u1 ? Hu1 Hc]; subst. assert (A := IH eq_refl u1 Hu1). apply (mstep_unique v1 v2 u St).
    destruct Hc as [x [Hx Hw]]. exists x. split.
    + apply (newton_correction_ext J c resp num_b u1 (unflat P v1)); [now apply agree_sym|exact Hx].
    + intros f p i Hs Hi. rewrite (Hw f p i Hs Hi). f_equal. symmetry. now apply A.
Qed.
End OneCircuit.

Lemma result_unique J inv c resp num_b max_it stop vj0 damp zj v it u :
  let call := harmonic_balance J inv c resp num_b max_it stop vj0 damp "x" zj in
  simulates c num_b -> (0 <= max_it)%Z -> inverts inv -> r_ret call = Ok (RetX v it true) ->
  corrections J (r_cct call) resp num_b damp (Z.to_nat it) (start c vj0 zj) u -> agree (h_q c) v u.
Proof.
  cbv zeta. intros Hs Hm Hinv H Hu. destruct (call_steps J inv num_b zj damp c resp max_it stop vj0 v it Hs Hm H) as [g [rm [w [ij [G [ER [M [-> _]]]]]]]].
  destruct (sim_parts c num_b Hs) as [Ha [Hp [Hz Hw]]]. rewrite (cct_after J inv c resp num_b max_it stop vj0 damp zj "x" Hz Hw) in Hu.
  apply (msteps_unique J inv (proj1 Hinv) c resp num_b rm damp Ha ER _ g w M).
  apply corrections_start with (start c vj0 zj); [|exact Hu]. now apply agree_sym.
Qed.

(** Two exact inverses give the same run. *)
Lemma relabel_id c : relabel_circuit (fun f => f) c = c.
Proof. destruct c as [q vt zt w]. destruct q. reflexivity. Qed.
Lemma permute_nb_id num_b : permute_nb (fun f => f) num_b = num_b.
Proof. destruct num_b as [m|l]; [reflexivity|]. cbn [permute_nb]. now rewrite nth_seq_id. Qed.
Lemma same_inverse J inv inv' c resp num_b max_it stop vj0 damp zj v it flag :
  let call := harmonic_balance J inv c resp num_b max_it stop vj0 damp "x" zj in
  inverts inv -> inverts inv' -> simulates c num_b -> one_per_tone (q_num_f (h_q c)) num_b ->
  (forall m u, corrections J (r_cct call) resp num_b damp m (start c vj0 zj) u -> everywhere (h_q c) (fun f p i => ~ undefined J (r_cct call) resp num_b u f p i)) ->
  r_ret call = Ok (RetX v it flag) ->
  exists v', r_ret (harmonic_balance J inv' c resp num_b max_it stop vj0 damp "x" zj) = Ok (RetX v' it flag) /\ agree (h_q c) v v'.
Proof.
  cbv zeta. intros H H' Hs Hl Hd Hr. assert (Hsig : relabels (fun f => f) (q_num_f (h_q c))) by (split; [reflexivity|]; rewrite map_id; apply Permutation_refl).
  destruct (relabel_x J inv inv' H H' (fun f => f) c resp num_b Hsig Hs Hl vj0 zj damp max_it stop v it flag Hd Hr) as [v' [R V]].
  rewrite relabel_id, permute_nb_id in R. exists v'. split; [|intros f p i S I; symmetry; now apply V].
  rewrite <- R. unfold relabel_guess. destruct vj0; reflexivity.
Qed.
