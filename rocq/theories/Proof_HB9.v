(** Relabelling the tones relabels the result of harmonic_balance; which exact inverse is used
    does not matter. *)
From Coq Require Import List ZArith Lia Bool Arith Reals Lra String Permutation.
From Coquelicot Require Import Complex.
From Verif Require Import Base Sums Round Model_QtCurrent Spec_QtCurrent Spec_QtApi Proof_QtCurrent Proof_QtCurrent2 Proof_QtSym
  Proof_QtApi Proof_QtApi2 Model_Circuit Proof_Circuit Model_HB Spec_HB Spec_HB2 Proof_HB Proof_HB2 Proof_HB3 Proof_HB4 Proof_HB5 Proof_HB8.
Import ListNotations.
Local Notation length := List.length.
Open Scope C_scope.


(** ** A square matrix has at most one right inverse *)
Definition skip (j k : nat) : nat := if (k <? j)%nat then k else S k.
Lemma skip_le j k m : (j <= m)%nat -> (k < m)%nat -> (skip j k <= m)%nat.
Proof. unfold skip. destruct (Nat.ltb_spec k j); lia. Qed.
Lemma skip_neq j k : skip j k <> j.
Proof. unfold skip. destruct (Nat.ltb_spec k j); lia. Qed.
Lemma skip_onto j l : l <> j -> exists k, skip j k = l /\ (forall m, (j <= m)%nat -> (l <= m)%nat -> (k < m)%nat).
Proof.
  intros H. destruct (Nat.lt_ge_cases l j) as [L|L].
  - exists l. unfold skip. destruct (Nat.ltb_spec l j); [|lia]. split; [reflexivity|intros; lia].
  - exists (l - 1)%nat. unfold skip. destruct (Nat.ltb_spec (l - 1) j); [lia|]. split; [lia|intros; lia].
Qed.
Lemma rsum_skip n f j : (j <= n)%nat -> rsum_to (S n) f = (f j + rsum_to n (fun k => f (skip j k)))%R.
Proof.
  revert j. induction n as [|n IH]; intros j H.
  - assert (j = 0%nat) by lia. subst j. cbn. ring.
  - destruct (Nat.eq_dec j (S n)) as [->|E].
    + change (rsum_to (S (S n)) f) with (rsum_to (S n) f + f (S n))%R.
      rewrite (rsum_to_ext (S n) (fun k => f (skip (S n) k)) f); [ring|]. intros k Hk. unfold skip. destruct (Nat.ltb_spec k (S n)); [reflexivity|lia].
    + change (rsum_to (S (S n)) f) with (rsum_to (S n) f + f (S n))%R. rewrite (IH j) by lia.
      change (rsum_to (S n) (fun k => f (skip j k))) with (rsum_to n (fun k => f (skip j k)) + f (skip j n))%R.
      replace (skip j n) with (S n); [ring|]. unfold skip. destruct (Nat.ltb_spec n j); [lia|reflexivity].
Qed.

(** Fewer equations than unknowns. *)
Lemma underdetermined m : forall A : nat -> nat -> R, exists y : nat -> R,
  (exists j, (j <= m)%nat /\ y j <> 0%R) /\ forall i, (i < m)%nat -> rsum_to (S m) (fun j => A i j * y j)%R = 0%R.
Proof.
  induction m as [|m IH]; intros A.
  - exists (fun _ => 1%R). split; [exists 0%nat; split; [lia|lra]|]. intros; lia.
  - (* the last equation *)
    assert (D : (forall j, (j <= S m)%nat -> A m j = 0%R) \/ exists j0, (j0 <= S m)%nat /\ A m j0 <> 0%R).
    { clear IH. generalize (S m). intros n. induction n as [|n IHn].
      - destruct (Req_dec (A m 0%nat) 0) as [E|E]; [left; intros j Hj; assert (j = 0%nat) by lia; now subst|right; eauto].
      - destruct IHn as [L|[j0 [H E]]]; [|right; exists j0; split; [lia|assumption]].
        destruct (Req_dec (A m (S n)) 0) as [E|E]; [left|right; exists (S n); split; [lia|assumption]].
        intros j Hj. destruct (Nat.eq_dec j (S n)) as [->|]; [assumption|apply L; lia]. }
    destruct D as [Z|[j0 [Hj0 Hp]]].
    + destruct (IH A) as [y [[j [Hj Ny]] Ey]].
      exists (fun k => if (k <=? m)%nat then y k else 0%R). split.
      { exists j. split; [lia|]. destruct (Nat.leb_spec j m); [assumption|lia]. }
      intros i Hi. destruct (Nat.eq_dec i m) as [->|N].
      * rewrite (rsum_to_ext _ _ (fun _ => 0%R)); [apply rsum_to_0|]. intros k Hk. rewrite Z by lia. ring.
      * change (rsum_to (S (S m)) (fun j1 => A i j1 * (if (j1 <=? m)%nat then y j1 else 0))%R) with
          (rsum_to (S m) (fun j1 => A i j1 * (if (j1 <=? m)%nat then y j1 else 0)) + A i (S m) * (if (S m <=? m)%nat then y (S m) else 0))%R.
        rewrite (rsum_to_ext (S m) _ (fun j1 => A i j1 * y j1)%R).
        2:{ intros k Hk. destruct (Nat.leb_spec k m); [reflexivity|lia]. }
        rewrite Ey by lia. destruct (Nat.leb_spec (S m) m); [lia|ring].
    + set (B := fun i k => (A i (skip j0 k) - A i j0 / A m j0 * A m (skip j0 k))%R).
      destruct (IH B) as [y [[j [Hj Ny]] Ey]].
      set (s := rsum_to (S m) (fun k => A m (skip j0 k) * y k)%R).
      set (un := fun l => if (l <? j0)%nat then l else (l - 1)%nat).
      assert (U : forall k, un (skip j0 k) = k).
      { intros k. unfold un, skip. destruct (Nat.ltb_spec k j0) as [L|L]; [destruct (Nat.ltb_spec k j0); lia|destruct (Nat.ltb_spec (S k) j0); lia]. }
      set (x := fun l => if (l =? j0)%nat then (- s / A m j0)%R else y (un l)).
      assert (X : forall k, x (skip j0 k) = y k).
      { intros k. unfold x. destruct (Nat.eqb_spec (skip j0 k) j0) as [E|_]; [now apply skip_neq in E|]. now rewrite U. }
      exists x. split. { exists (skip j0 j). split; [apply skip_le; lia|]. now rewrite X. }
      intros i Hi. rewrite (rsum_skip (S m) _ j0) by assumption. unfold x at 1. rewrite Nat.eqb_refl.
      rewrite (rsum_to_ext (S m) _ (fun k => A i (skip j0 k) * y k)%R) by (intros k _; now rewrite X).
      destruct (Nat.eq_dec i m) as [->|N]; [fold s; field; assumption|].
      assert (E := Ey i ltac:(lia)). unfold B in E.
      rewrite (rsum_to_ext (S m) _ (fun k => A i (skip j0 k) * y k + (- (A i j0 / A m j0)) * (A m (skip j0 k) * y k))%R) in E by (intros k _; ring).
      rewrite rsum_to_plus, rsum_to_scal in E. fold s in E. rewrite <- E. field. assumption.
Qed.

Lemma right_inverse_kernel n M N x : right_inverse n M N -> (forall a, (a < n)%nat -> rsum_to n (fun b => M a b * x b)%R = 0%R) ->
  forall b, (b < n)%nat -> x b = 0%R.
Proof.
  intros HN HK. destruct (underdetermined n (fun i j => if (j <? n)%nat then N i j else x i)) as [y [[j [Hj Ny]] Ey]].
  assert (E : forall i, (i < n)%nat -> (rsum_to n (fun k => N i k * y k) + x i * y n = 0)%R).
  { intros i Hi. specialize (Ey i Hi). cbn [rsum_to] in Ey. rewrite Nat.ltb_irrefl in Ey. rewrite <- Ey. f_equal. apply rsum_to_ext. intros k Hk. destruct (Nat.ltb_spec k n); [reflexivity|lia]. }
  assert (Z : forall a, (a < n)%nat -> y a = 0%R).
  { intros a Ha. assert (S0 : rsum_to n (fun i => M a i * (rsum_to n (fun k => N i k * y k) + x i * y n))%R = 0%R).
    { rewrite (rsum_to_ext n _ (fun _ => 0%R)); [apply rsum_to_0|]. intros i Hi. rewrite E by assumption. ring. }
    rewrite (rsum_to_ext n _ (fun i => rsum_to n (fun k => M a i * N i k * y k) + y n * (M a i * x i))%R) in S0.
    2:{ intros i Hi. rewrite Rmult_plus_distr_l, <- rsum_to_scal. f_equal; [|ring]. apply rsum_to_ext. intros k _. ring. }
    rewrite rsum_to_plus, rsum_to_scal, (HK a Ha), rsum_to_exchange in S0.
    rewrite (rsum_to_ext n _ (fun k => (if (a =? k)%nat then 1 else 0) * y k)%R) in S0.
    2:{ intros k Hk. rewrite <- (HN a k Ha Hk). rewrite (rsum_to_ext n _ (fun i => y k * (M a i * N i k))%R) by (intros; ring). rewrite rsum_to_scal. ring. }
    rewrite rsum_to_delta in S0 by assumption. lra. }
  assert (yn : y n <> 0%R). { destruct (Nat.eq_dec j n) as [<-|]; [assumption|]. exfalso. apply Ny, Z. lia. }
  intros b Hb. specialize (E b Hb). rewrite (rsum_to_ext n _ (fun _ => 0%R)), rsum_to_0 in E by (intros k Hk; rewrite Z by assumption; ring).
  rewrite Rplus_0_l in E. apply Rmult_integral in E. tauto.
Qed.
Lemma right_inverse_unique n M M' N N' : right_inverse n M N -> right_inverse n M' N' ->
  (forall a b, (a < n)%nat -> (b < n)%nat -> M' a b = M a b) ->
  forall a c, (a < n)%nat -> (c < n)%nat -> N' a c = N a c.
Proof.
  intros H H' E a c Ha Hc. assert (K := right_inverse_kernel n M N (fun b => N' b c - N b c)%R H).
  enough ((N' a c - N a c)%R = 0%R) by lra. apply K; [|assumption]. intros d Hd.
  rewrite (rsum_to_ext n _ (fun b => M' d b * N' b c + (-1) * (M d b * N b c))%R) by (intros b Hb; rewrite E by assumption; ring).
  rewrite rsum_to_plus, rsum_to_scal, H, H' by assumption. ring.
Qed.

(** ** Sums over relabelled signals *)
Lemma rsum_to_fold n f : rsum_to n f = fold_right Rplus 0%R (map f (seq 0 n)).
Proof.
  induction n as [|n IH]; [reflexivity|]. rewrite seq_S, map_app, fold_right_app. cbn [rsum_to]. rewrite IH. cbn [map plus fold_right].
  generalize (map f (seq 0 n)). intros l. induction l as [|x l IHl]; [cbn; ring|]. cbn [fold_right]. rewrite <- IHl. ring.
Qed.
Lemma rsum_to_perm n pi f : Permutation (map pi (seq 0 n)) (seq 0 n) -> rsum_to n (fun k => f (pi k)) = rsum_to n f.
Proof.
  intros H. rewrite !rsum_to_fold. rewrite <- (map_map pi f). apply (Permutation_map f) in H.
  induction H as [|x l l' H IH|x y l|l1 l2 l3 H1 IH1 H2 IH2]; [reflexivity|cbn [fold_right]; now rewrite IH|cbn [fold_right]; ring|congruence].
Qed.

Section Step.
Variables num_n npts : nat.
Variables qt qt' : arr2 -> res arr2.
Variables inv inv' : nat -> (nat -> nat -> R) -> option (nat -> nat -> R).
Variables vt zt vt' zt' : nat -> C.
Variable damp : R.
Variable pi : nat -> nat.
Hypothesis Hinv : inverts inv.
Hypothesis Hinv' : inverts inv'.
Hypothesis Hpi : Permutation (map pi (seq 0 num_n)) (seq 0 num_n).
Hypothesis Hvt : forall k, (k < num_n)%nat -> vt' k = vt (pi k).
Hypothesis Hzt : forall k, (k < num_n)%nat -> zt' k = zt (pi k).
Let rel (v v' : arr2) := forall k i, (k < num_n)%nat -> (i < npts)%nat -> v' k i = v (pi k) i.
Hypothesis Hqt : forall v v' ij, rel v v' -> qt v = Ok ij -> exists ij', qt' v' = Ok ij' /\ rel ij ij'.

Lemma pi_bound k : (k < num_n)%nat -> (pi k < num_n)%nat.
Proof. clear - Hpi. intros H. assert (I : In (pi k) (seq 0 num_n)) by (eapply Permutation_in; [exact Hpi|]; apply in_map, in_seq; lia). apply in_seq in I. lia. Qed.
Lemma pi_inj a b : (a < num_n)%nat -> (b < num_n)%nat -> pi a = pi b -> a = b.
Proof.
  clear - Hpi. intros Ha Hb E. assert (N : NoDup (map pi (seq 0 num_n))) by (eapply Permutation_NoDup; [apply Permutation_sym; exact Hpi|apply seq_NoDup]).
  rewrite (NoDup_nth _ (pi 0)) in N. specialize (N a b). rewrite map_length, seq_length, !map_nth, !seq_nth in N by assumption. now apply N.
Qed.
Lemma pi_onto l : (l < num_n)%nat -> exists k, (k < num_n)%nat /\ pi k = l.
Proof.
  clear - Hpi. intros H. assert (I : In l (map pi (seq 0 num_n))) by (eapply Permutation_in; [apply Permutation_sym; exact Hpi|]; apply in_seq; lia).
  apply in_map_iff in I. destruct I as [k [E I]]. apply in_seq in I. exists k. split; [lia|assumption].
Qed.

Lemma residual_rel v v' ij ij' : rel v v' -> rel ij ij' -> rel (residual vt zt ij v) (residual vt' zt' ij' v').
Proof. clear - Hvt Hzt rel. intros A B k i Hk Hi. unfold residual. now rewrite Hvt, Hzt, A, B by assumption. Qed.
Lemma bump_rel u q v v' : (q < num_n)%nat -> rel v v' -> rel (bump u (pi q) v) (bump u q v').
Proof.
  intros Hq A k i Hk Hi. unfold bump. rewrite (A k i Hk Hi). destruct (Nat.eqb_spec k q) as [->|E]; [now rewrite Nat.eqb_refl|].
  destruct (Nat.eqb_spec (pi k) (pi q)) as [E'|_]; [|reflexivity]. exfalso. apply E. now apply pi_inj.
Qed.

Definition rho (a : nat) : nat := (pi (a / 2) * 2 + a mod 2)%nat.
Lemma rho_bound a : (a < 2 * num_n)%nat -> (rho a < 2 * num_n)%nat.
Proof.
  intros H. unfold rho. assert (a / 2 < num_n)%nat by (apply Nat.div_lt_upper_bound; lia). assert (B := pi_bound (a / 2) ltac:(assumption)).
  assert (a mod 2 < 2)%nat by (apply Nat.mod_upper_bound; lia). lia.
Qed.
Lemma half a : (a mod 2 < 2)%nat.
Proof. apply Nat.mod_upper_bound. lia. Qed.
Lemma split_two q r : (r < 2)%nat -> ((q * 2 + r) / 2 = q)%nat /\ ((q * 2 + r) mod 2 = r)%nat.
Proof. intros H. rewrite Nat.add_comm. rewrite Nat.div_add, Nat.mod_add, Nat.div_small, Nat.mod_small by lia. lia. Qed.
Lemma rho_split a : (rho a / 2 = pi (a / 2))%nat /\ (rho a mod 2 = a mod 2)%nat.
Proof. unfold rho. apply split_two, half. Qed.
Lemma rho_even q : rho (q * 2) = (pi q * 2)%nat.
Proof. unfold rho. rewrite Nat.div_mul, Nat.mod_mul by lia. lia. Qed.
Lemma rho_odd q : rho (q * 2 + 1) = (pi q * 2 + 1)%nat.
Proof. unfold rho. destruct (split_two q 1) as [-> ->]; lia. Qed.
Lemma rho_inj a b : (a < 2 * num_n)%nat -> (b < 2 * num_n)%nat -> (rho a =? rho b)%nat = (a =? b)%nat.
Proof.
  intros Ha Hb. destruct (Nat.eqb_spec a b) as [->|N]; [apply Nat.eqb_refl|]. apply Nat.eqb_neq. intros E. apply N.
  destruct (rho_split a) as [A1 A2]. destruct (rho_split b) as [B1 B2]. rewrite E in A1, A2. rewrite A1 in B1. rewrite A2 in B2.
  apply pi_inj in B1; try (apply Nat.div_lt_upper_bound; lia). rewrite (Nat.div_mod a 2), (Nat.div_mod b 2) by lia. now rewrite B1, B2.
Qed.
Lemma rsum_rho f : rsum_to (2 * num_n) (fun a => f (rho a)) = rsum_to (2 * num_n) f.
Proof.
  rewrite !rsum_to_double. rewrite <- (rsum_to_perm num_n pi (fun q => f (q * 2)%nat + f (q * 2 + 1)%nat)%R Hpi).
  apply rsum_to_ext. intros k _. now rewrite rho_even, rho_odd.
Qed.
Lemma right_inverse_rho M N : right_inverse (2 * num_n) M N -> right_inverse (2 * num_n) (fun a b => M (rho a) (rho b)) (fun a b => N (rho a) (rho b)).
Proof.
  intros H a c Ha Hc. rewrite (rsum_rho (fun b => M (rho a) b * N b (rho c))%R). rewrite (H _ _ (rho_bound a Ha) (rho_bound c Hc)). now rewrite rho_inj.
Qed.

Lemma jacobian_rel v v' err err' jac : rel v v' -> rel err err' -> jacobian num_n qt vt zt err v = Ok jac ->
  exists jac', jacobian num_n qt' vt' zt' err' v' = Ok jac' /\
  forall i a b, (i < npts)%nat -> (a < 2 * num_n)%nat -> (b < 2 * num_n)%nat -> jac' i a b = jac i (rho a) (rho b).
Proof.
  intros A B H. unfold jacobian in *. apply bind_ok in H. destruct H as [cols [Ec H]].
  apply (f_equal (fun r => match r with Ok x => x | Err _ => jac end)) in H. cbv beta iota in H. subst jac.
  set (col := fun q => let* ij_re := qt (bump (RtoC 1) q v) in let* ij_im := qt (bump Ci q v) in
      Ok (residual vt zt ij_re (bump (RtoC 1) q v), residual vt zt ij_im (bump Ci q v))) in *.
  set (col' := fun q => let* ij_re := qt' (bump (RtoC 1) q v') in let* ij_im := qt' (bump Ci q v') in
      Ok (residual vt' zt' ij_re (bump (RtoC 1) q v'), residual vt' zt' ij_im (bump Ci q v'))).
  assert (S : forall q e, (q < num_n)%nat -> col (pi q) = Ok e -> exists e', col' q = Ok e' /\ rel (fst e) (fst e') /\ rel (snd e) (snd e')).
  { intros q e Hq E. unfold col in E. apply bind_ok in E. destruct E as [ir [E1 E]]. apply bind_ok in E. destruct E as [ii [E2 E]]. injection E as <-.
    destruct (Hqt _ _ _ (bump_rel (RtoC 1) q v v' Hq A) E1) as [ir' [E1' S1]]. destruct (Hqt _ _ _ (bump_rel Ci q v v' Hq A) E2) as [ii' [E2' S2]].
    eexists. split. { unfold col'. rewrite E1'. cbn [bind]. rewrite E2'. reflexivity. }
    split; apply residual_rel; auto; now apply bump_rel. }
  destruct (mapM_nth col (seq 0 num_n) cols Ec) as [L N].
  assert (G : forall q, (q < num_n)%nat -> exists e, nth_error cols q = Some e /\ col q = Ok e).
  { intros q Hq. apply N. rewrite nth_error_seq by assumption. reflexivity. }
  destruct (mapM_ok col' (seq 0 num_n)) as [cols' Ec'].
  { intros q Hq. apply in_seq in Hq. destruct (G (pi q)) as [e [_ E]]; [apply pi_bound; lia|]. destruct (S q e ltac:(lia) E) as [e' [E' _]]. eauto. }
  destruct (mapM_nth col' (seq 0 num_n) cols' Ec') as [L' N'].
  fold col'. rewrite Ec'. cbn [bind]. eexists. split; [reflexivity|]. intros i a b Hi Ha Hb. cbv beta.
  assert (Hb2 : (b / 2 < num_n)%nat) by (apply Nat.div_lt_upper_bound; lia). assert (Ha2 : (a / 2 < num_n)%nat) by (apply Nat.div_lt_upper_bound; lia).
  destruct (rho_split a) as [-> ->]. destruct (rho_split b) as [-> ->].
  destruct (G _ (pi_bound _ Hb2)) as [e [-> E]]. destruct (N' (b / 2)%nat (b / 2)%nat) as [e' [-> E']]; [now rewrite nth_error_seq|].
  destruct (S _ _ Hb2 E) as [e'' [E'' [S1 S2]]]. rewrite E' in E''. injection E'' as <-. destruct e as [e1 e2], e' as [e1' e2']. cbn [fst snd] in *.
  unfold jac_entry. now rewrite (S1 _ _ Ha2 Hi), (S2 _ _ Ha2 Hi), (B _ _ Ha2 Hi).
Qed.

Lemma inverse_rel v v' err err' js : rel v v' -> rel err err' -> inv_jacobian num_n npts qt inv vt zt err v = Ok js ->
  exists js', inv_jacobian num_n npts qt' inv' vt' zt' err' v' = Ok js' /\
  forall i a b, (i < npts)%nat -> (a < 2 * num_n)%nat -> (b < 2 * num_n)%nat -> nth i js' (fun _ _ => 0%R) a b = nth i js (fun _ _ => 0%R) (rho a) (rho b).
Proof.
  intros A B H. unfold inv_jacobian in *. apply bind_ok in H. destruct H as [jac [Ej H]].
  destruct (jacobian_rel v v' err err' jac A B Ej) as [jac' [Ej' S]]. rewrite Ej'. cbn [bind].
  set (g := fun i => match inv (2 * num_n) (jac i) with Some m => Ok m | None => Err LinAlgError end) in *.
  set (g' := fun i => match inv' (2 * num_n) (jac' i) with Some m => Ok m | None => Err LinAlgError end).
  assert (E : forall i m, (i < npts)%nat -> g i = Ok m -> right_inverse (2 * num_n) (jac' i) (fun a b => m (rho a) (rho b))).
  { intros i m Hi Em. unfold g in Em. destruct (inv (2 * num_n) (jac i)) as [m0|] eqn:Ei; [|discriminate]. injection Em as <-.
    apply (proj1 Hinv) in Ei. apply right_inverse_rho in Ei. intros a c Ha Hc. rewrite <- (Ei a c Ha Hc). apply rsum_to_ext. intros b Hb. now rewrite S. }
  destruct (mapM_nth g (seq 0 npts) js H) as [L N].
  assert (G : forall i, (i < npts)%nat -> exists m, nth_error js i = Some m /\ g i = Ok m).
  { intros i Hi. apply N. rewrite nth_error_seq by assumption. reflexivity. }
  destruct (mapM_ok g' (seq 0 npts)) as [js' Es'].
  { intros i Hi. apply in_seq in Hi. destruct (G i) as [m [_ Em]]; [lia|]. apply E in Em; [|lia].
    destruct (proj2 Hinv' _ _ (ex_intro _ _ Em)) as [m' Em']. exists m'. unfold g'. now rewrite Em'. }
  exists js'. split; [exact Es'|]. intros i a b Hi Ha Hb. destruct (mapM_nth g' (seq 0 npts) js' Es') as [L' N'].
  destruct (N' i i) as [m' [Em' G']]; [now rewrite nth_error_seq|]. destruct (G i Hi) as [m [Em Gm]].
  rewrite (nth_error_nth _ _ _ Em), (nth_error_nth _ _ _ Em'). apply E in Gm; [|assumption].
  unfold g' in G'. destruct (inv' (2 * num_n) (jac' i)) as [m0|] eqn:Ei; [|discriminate]. injection G' as <-. apply (proj1 Hinv') in Ei.
  now rewrite (right_inverse_unique _ _ _ _ _ Gm Ei) by auto.
Qed.

Lemma corr_rel (js js' : nat -> nat -> nat -> R) err err' k i : rel err err' -> (k < num_n)%nat -> (i < npts)%nat ->
  (forall a b, (a < 2 * num_n)%nat -> (b < 2 * num_n)%nat -> js' i a b = js i (rho a) (rho b)) ->
  corr num_n js' err' k i = corr num_n js err (pi k) i.
Proof.
  intros A Hk Hi E. destruct (corr_parts num_n js' err' k i) as [R1 I1]. destruct (corr_parts num_n js err (pi k) i) as [R2 I2].
  assert (X : forall z w : C, Re z = Re w -> Im z = Im w -> z = w) by (intros [] [] ? ?; cbn in *; congruence).
  apply X; [rewrite R1, R2|rewrite I1, I2]; f_equal.
  - rewrite <- (rsum_to_perm num_n pi (fun q => js i (pi k * 2)%nat (q * 2)%nat * Re (err q i) + js i (pi k * 2)%nat (q * 2 + 1)%nat * Im (err q i))%R Hpi).
    apply rsum_to_ext. intros q Hq. rewrite (A q i Hq Hi). rewrite !E by lia. now rewrite !rho_even, rho_odd.
  - rewrite <- (rsum_to_perm num_n pi (fun q => js i (pi k * 2 + 1)%nat (q * 2)%nat * Re (err q i) + js i (pi k * 2 + 1)%nat (q * 2 + 1)%nat * Im (err q i))%R Hpi).
    apply rsum_to_ext. intros q Hq. rewrite (A q i Hq Hi). rewrite !E by lia. now rewrite rho_even, !rho_odd.
Qed.

Lemma update_rel js js' err err' v v' : rel v v' -> rel err err' ->
  (forall i a b, (i < npts)%nat -> (a < 2 * num_n)%nat -> (b < 2 * num_n)%nat -> nth i js' (fun _ _ => 0%R) a b = nth i js (fun _ _ => 0%R) (rho a) (rho b)) ->
  rel (update num_n damp js err v) (update num_n damp js' err' v').
Proof.
  intros A B E k i Hk Hi. unfold update. rewrite (A k i Hk Hi).
  now rewrite (corr_rel (fun j => nth j js (fun _ _ => 0%R)) (fun j => nth j js' (fun _ _ => 0%R)) err err' k i B Hk Hi) by auto.
Qed.

(** ** The decisions *)
Variables (stop : R) (max_it : Z).
Hypothesis Hn : (1 <= num_n)%nat.
Hypothesis Hp : (1 <= npts)%nat.
Definition defined (err v : arr2) : Prop := forall k i, (k < num_n)%nat -> (i < npts)%nat -> ~ (v k i = RtoC 0 /\ err k i = RtoC 0).

Lemma defined_rel err err' v v' : rel v v' -> rel err err' -> defined err v -> defined err' v'.
Proof. intros A B D k i Hk Hi. rewrite (A k i Hk Hi), (B k i Hk Hi). apply D; [now apply pi_bound|assumption]. Qed.

Lemma max_rel_iff err v s : defined err v -> xle_r (max_rel_error num_n npts err v) s = true <->
  forall k i, (k < num_n)%nat -> (i < npts)%nat -> v k i <> RtoC 0 /\ (Cmod (err k i) <= s * Cmod (v k i))%R.
Proof.
  clear - Hn Hp. intros D. split.
  - intros H k i Hk Hi. apply (max_rel_le _ _ err v s Hp H k Hk); [|assumption]. intros k' j Hk' Hj. apply D; lia.
  - intros H. apply max_rel_le_back; [assumption| |assumption]. destruct (H 0%nat 0%nat Hn Hp) as [N L]. assert (P := Cmod_gt_0 (v 0%nat 0%nat)). apply P in N.
    assert (Q := Cmod_ge_0 (err 0%nat 0%nat)). destruct (Rle_dec 0 s) as [|X]; [assumption|]. exfalso. nra.
Qed.
Lemma max_rel_eq err err' v v' s : rel v v' -> rel err err' -> defined err v ->
  xle_r (max_rel_error num_n npts err' v') s = xle_r (max_rel_error num_n npts err v) s.
Proof.
  intros A B D. apply eq_true_iff_eq. rewrite !max_rel_iff by (try assumption; now apply (defined_rel err err' v v')). split; intros H k i Hk Hi.
  - destruct (pi_onto k Hk) as [l [Hl <-]]. rewrite <- (A l i Hl Hi), <- (B l i Hl Hi). now apply H.
  - rewrite (A k i Hk Hi), (B k i Hk Hi). apply H; [now apply pi_bound|assumption].
Qed.
Lemma max_rel_gt err v s : defined err v -> xgt_r (max_rel_error num_n npts err v) s = negb (xle_r (max_rel_error num_n npts err v) s).
Proof.
  clear - Hn Hp. intros D. destruct (xle_r _ s) eqn:E; cbn [negb].
  - destruct (xgt_r _ s) eqn:G; [|reflexivity]. apply xgt_not_le in G. congruence.
  - destruct (xgt_r _ s) eqn:G; [reflexivity|]. exfalso. pose proof (x_trichotomy _ _ E G) as X. apply (max_rel_nan _ _ err v Hp Hn) in X.
    destruct X as [i [Hi X]]. revert X. apply D; lia.
Qed.
Lemma finished_rel err err' v v' i : rel v v' -> rel err err' -> (i < npts)%nat ->
  finished_points num_n stop err' v' i = finished_points num_n stop err v i.
Proof.
  intros A B Hi. apply eq_true_iff_eq. rewrite !finished_spec. split; intros H k Hk.
  - destruct (pi_onto k Hk) as [l [Hl <-]]. rewrite <- (A l i Hl Hi), <- (B l i Hl Hi). now apply H.
  - rewrite (A k i Hk Hi), (B k i Hk Hi). apply H. now apply pi_bound.
Qed.

(** Two outcomes of the loop that report the same. *)
Definition same_out (o o' : loop_out) : Prop :=
  l_iter o' = l_iter o /\ l_why o' = l_why o /\
  match l_mask o, l_mask o' with Some m, Some m' => forall i, (i < npts)%nat -> m' i = m i | None, None => True | _, _ => False end.

Lemma newton_rel : forall its v v' last last' w o, rel v v' -> same_out last last' ->
  (forall m u iu, msteps num_n npts qt inv vt zt damp m v u -> qt u = Ok iu -> defined (residual vt zt iu u) u) ->
  newton num_n npts qt inv vt zt stop damp max_it its v last = (w, Ok o) ->
  exists w' o', newton num_n npts qt' inv' vt' zt' stop damp max_it its v' last' = (w', Ok o') /\ rel w w' /\ same_out o o'.
Proof.
  induction its as [|it its IH]; intros v v' last last' w o A So D H; cbn [newton] in *.
  - injection H as <- <-. eauto.
  - destruct (qt v) as [ij|] eqn:Eq; [|discriminate]. destruct (Hqt v v' ij A Eq) as [ij' [-> Aij]].
    assert (Ar := residual_rel v v' ij ij' A Aij). set (err := residual vt zt ij v) in *. set (err' := residual vt' zt' ij' v') in *.
    assert (De : defined err v) by (apply (D 0%nat v ij); [constructor|assumption]).
    assert (De' := defined_rel err err' v v' A Ar De).
    rewrite (max_rel_gt err' v' stop De'), (max_rel_eq err err' v v' stop A Ar De). rewrite (max_rel_gt err v stop De) in H.
    assert (Sm : forall wh, same_out {| l_iter := it; l_mask := Some (finished_points num_n stop err v); l_why := wh |}
                        {| l_iter := it; l_mask := Some (finished_points num_n stop err' v'); l_why := wh |}).
    { intros wh. split; [reflexivity|]. split; [reflexivity|]. cbn [l_mask]. intros i Hi. now apply finished_rel. }
    destruct (xle_r (max_rel_error num_n npts err v) stop); cbn [negb andb] in *.
    { injection H as <- <-. eexists. eexists. split; [reflexivity|]. split; [assumption|apply Sm]. }
    destruct (it =? max_it)%Z. { injection H as <- <-. eexists. eexists. split; [reflexivity|]. split; [assumption|apply Sm]. }
    destruct (inv_jacobian num_n npts qt inv vt zt err v) as [js|] eqn:Ej; [|discriminate].
    destruct (inverse_rel v v' err err' js A Ar Ej) as [js' [-> Sj]].
    apply (IH _ (update num_n damp js' err' v') _ {| l_iter := it; l_mask := Some (finished_points num_n stop err' v'); l_why := RanOut |}) in H.
    + exact H.
    + now apply update_rel.
    + apply Sm.
    + intros m u iu M Eu. apply (D (S m) u iu); [|assumption]. eapply msteps_l; [|exact M]. exists ij, js. auto.
Qed.
End Step.

(** ** Calls *)
Section Calls.
Variable J : nat -> R -> R.
Variables inv inv' : nat -> (nat -> nat -> R) -> option (nat -> nat -> R).
Hypothesis Hinv : inverts inv.
Hypothesis Hinv' : inverts inv'.
Variables (sigma : nat -> nat) (c : hcct) (resp : R -> C) (num_b : numb).
Hypothesis Hsig : relabels sigma (q_num_f (h_q c)).
Hypothesis Hs : simulates c num_b.
Hypothesis Hlen : one_per_tone (q_num_f (h_q c)) num_b.
Notation q := (h_q c).
Notation c' := (relabel_circuit sigma c).
Notation q' := (permute_cct sigma (h_q c)).
Notation num_b' := (permute_nb sigma num_b).
Notation P := (q_num_p q).
Notation F := (q_num_f q).
Notation n := (q_num_f q * q_num_p q)%nat.

Lemma sigma_range f : (1 <= f <= F)%nat -> (1 <= sigma f <= F)%nat.
Proof.
  intros Hf. destruct Hsig as [_ H]. assert (I : In (sigma f) (seq 1 F)) by (eapply Permutation_in; [exact H|]; apply in_map, in_seq; lia). apply in_seq in I. lia.
Qed.
Lemma sigma_onto f : (f <= F)%nat -> exists g, (g <= F)%nat /\ sigma g = f.
Proof.
  intros Hf. destruct Hsig as [Z H]. destruct (Nat.eq_dec f 0) as [->|N]; [exists 0%nat; split; [lia|assumption]|].
  assert (I : In f (map sigma (seq 1 F))) by (eapply Permutation_in; [apply Permutation_sym; exact H|]; apply in_seq; lia).
  apply in_map_iff in I. destruct I as [g [E I]]. apply in_seq in I. exists g. split; [lia|assumption].
Qed.

Definition move (k : nat) : nat := sig_k P (sigma (sig_f P k)) (sig_p P k).
Lemma P_pos : (1 <= P)%nat.
Proof. destruct Hs as [[_ [H _]] _]. exact H. Qed.
Lemma move_fp k : (k < n)%nat -> sig_f P (move k) = sigma (sig_f P k) /\ sig_p P (move k) = sig_p P k.
Proof. intros Hk. destruct (sig_range F P k Hk) as [A B]. unfold move. apply sig_k_fp; [|assumption]. apply sigma_range in A. lia. Qed.
Lemma move_bound k : (k < n)%nat -> (move k < n)%nat.
Proof. intros Hk. destruct (sig_range F P k Hk) as [A B]. unfold move. apply sig_k_bound; [now apply sigma_range|assumption]. Qed.
Lemma sigma_inj a b : (1 <= a <= F)%nat -> (1 <= b <= F)%nat -> sigma a = sigma b -> a = b.
Proof.
  intros Ha Hb E. destruct Hsig as [_ H]. assert (N : NoDup (map sigma (seq 1 F))) by (eapply Permutation_NoDup; [apply Permutation_sym; exact H|apply seq_NoDup]).
  rewrite (NoDup_nth _ (sigma 0)) in N. specialize (N (a - 1)%nat (b - 1)%nat). rewrite map_length, seq_length, !map_nth, !seq_nth in N by lia.
  replace (1 + (a - 1))%nat with a in N by lia. replace (1 + (b - 1))%nat with b in N by lia. specialize (N ltac:(lia) ltac:(lia) E). lia.
Qed.
Lemma move_perm : Permutation (map move (seq 0 n)) (seq 0 n).
Proof.
  apply NoDup_Permutation_bis; [|now rewrite map_length|].
  - apply (NoDup_nth _ (move 0)). intros i j Hi Hj E. rewrite map_length, seq_length in Hi, Hj. rewrite !map_nth, !seq_nth in E by assumption. cbn [plus] in E.
    destruct (move_fp i Hi) as [A1 A2]. destruct (move_fp j Hj) as [B1 B2]. rewrite E in A1, A2. rewrite A1 in B1. rewrite A2 in B2.
    destruct (sig_range F P i Hi) as [R1 _]. destruct (sig_range F P j Hj) as [R2 _].
    assert (sig_f P i = sig_f P j) by (apply sigma_inj; congruence). rewrite <- (sig_fp_k P i P_pos), <- (sig_fp_k P j P_pos). congruence.
  - intros x Hx. apply in_map_iff in Hx. destruct Hx as [k [<- Hk]]. apply in_seq in Hk. apply in_seq. assert (move k < n)%nat by (apply move_bound; lia). lia.
Qed.

Lemma relabel_args : args_ok q' num_b'.
Proof.
  destruct Hs as [[HF [HP [Hf Hn]]] _]. split; [assumption|]. split; [assumption|]. split.
  - intros f Hf'. apply Hf. now apply sigma_range.
  - unfold one_per_tone in Hlen. destruct num_b as [m|l]; cbn [permute_nb]; [exact I|]. rewrite map_length, seq_length. cbn [permute_cct q_num_f]. lia.
Qed.
Lemma relabel_simulates : simulates c' num_b'.
Proof.
  split; [exact relabel_args|]. destruct Hs as [_ [Hp [Hw [f [p [Hf [Hp' Hz]]]]]]]. split; [exact Hp|]. split; [exact Hw|].
  destruct (sigma_onto f Hf) as [g [Hg <-]]. exists g, p. auto.
Qed.
Lemma relabel_row v w : spec_row J (fun f => v (sigma f)) q' resp num_b' w = spec_row J v q resp num_b w.
Proof.
  assert (E := relabel J v q resp (FList [w]) num_b sigma (proj1 Hs) Hlen (proj2 Hsig)). rewrite qt_list in E by exact relabel_args. rewrite qt_list in E by exact (proj1 Hs).
  injection E as E. exact E.
Qed.
Lemma relabel_current v f p i : (i < q_npts q)%nat ->
  current_at J q' resp num_b' (fun f => v (sigma f)) f p i = current_at J q resp num_b v (sigma f) p i.
Proof.
  intros Hi. assert (E := relabel_row v (q_freq q (sigma f) * INR p)). apply (f_equal (fun l => nth i l (RtoC 0))) in E. unfold spec_row in E.
  rewrite !tab_nth in E by exact Hi. exact E.
Qed.

Lemma relabel_qt rm rm' v v' ij : interpolate_respfn q resp num_b = Ok rm -> interpolate_respfn q' resp num_b' = Ok rm' ->
  (forall k i, (k < n)%nat -> (i < q_npts q)%nat -> v' k i = v (move k) i) ->
  qt_current_for_hb J q resp num_b (Some rm) v = Ok ij ->
  exists ij', qt_current_for_hb J q' resp num_b' (Some rm') v' = Ok ij' /\ forall k i, (k < n)%nat -> (i < q_npts q)%nat -> ij' k i = ij (move k) i.
Proof.
  intros ER ER' H E. pose proof (proj1 Hs) as Ha. pose proof relabel_args as Ha'.
  destruct (qt_for_hb J q resp num_b rm v Ha ER) as [ij0 [E0 H0]]. rewrite E in E0. injection E0 as <-.
  destruct (qt_for_hb J q' resp num_b' rm' v' Ha' ER') as [ij' [E' H']]. exists ij'. split; [exact E'|].
  intros k i Hk Hi. rewrite (H' k i Hk Hi). rewrite (H0 _ i (move_bound k Hk) Hi). destruct (move_fp k Hk) as [-> ->].
  cbn [q_num_p permute_cct]. rewrite <- relabel_current by assumption. apply current_at_ext; [exact Hi|].
  intros f p j [Hf Hp] Hj. cbn [permute_cct q_num_f q_num_p q_npts] in Hf, Hp, Hj. pose proof (sigma_range f Hf) as Hf'. rewrite !unflat_sig by lia.
  assert (Hb := sig_k_bound F P f p Hf Hp). rewrite (H _ j Hb Hj). f_equal. unfold move. now destruct (sig_k_fp P f p) as [-> ->]; [lia|lia|].
Qed.

Variables (vj0 : option arr3) (zj : C) (damp : R) (max_it : Z) (stop : R).
Notation vj0' := (relabel_guess sigma vj0).
Notation call mode := (harmonic_balance J inv c resp num_b max_it stop vj0 damp mode zj).
Notation call' mode := (harmonic_balance J inv' c' resp num_b' max_it stop vj0' damp mode zj).

Lemma relabel_start f p i : start c' vj0' zj f p i = start c vj0 zj (sigma f) p i.
Proof. unfold start, relabel_guess. destruct vj0 as [g|]; reflexivity. Qed.

(** The guess of the relabelled call exists if that of the call does. *)
Lemma relabel_default : (exists a, default_guess q (clamp_vt (h_vt c)) (h_zt c) zj = Some a) ->
  exists a, default_guess q' (clamp_vt (h_vt c')) (h_zt c') zj = Some a.
Proof.
  unfold default_guess. cbn [permute_cct q_num_f q_num_p relabel_circuit h_zt]. intros [a H].
  destruct (forallb (fun f => forallb (fun p => negb (Reqb (Cmod (Cplus zj (h_zt c f p))) 0)) (seq 1 P)) (seq 1 F)) eqn:E; [|discriminate].
  replace (forallb (fun f => forallb (fun p => negb (Reqb (Cmod (Cplus zj (h_zt c (sigma f) p))) 0)) (seq 1 P)) (seq 1 F)) with true; [eauto|].
  symmetry. rewrite forallb_forall in E |- *. intros f Hf. apply E. apply in_seq in Hf. apply in_seq. pose proof (sigma_range f). lia.
Qed.

Lemma hb_guess_exists mode x : r_ret (call mode) = Ok x -> vj0 = None -> exists a, default_guess q (clamp_vt (h_vt c)) (h_zt c) zj = Some a.
Proof.
  intros H ->. destruct (sim_parts c num_b Hs) as [_ [_ [Hz Hw]]]. revert H. unfold harmonic_balance. apply all_zero_false in Hz. rewrite Hz, Hw. cbn [negb].
  destruct (default_guess q (clamp_vt (h_vt c)) (h_zt c) zj); [eauto|discriminate].
Qed.

Lemma relabel_loop mode x :
  (forall m u, corrections J (r_cct (call mode)) resp num_b damp m (start c vj0 zj) u ->
     everywhere q (fun f p i => ~ undefined J (r_cct (call mode)) resp num_b u f p i)) ->
  r_ret (call mode) = Ok x ->
  exists v o v' o', ret_of mode max_it (unflat P v) o = Ok x /\ r_ret (call' mode) = ret_of mode max_it (unflat P v') o' /\
    (forall k i, (k < n)%nat -> (i < q_npts q)%nat -> v' k i = v (move k) i) /\ same_out (q_npts q) o o'.
Proof.
  intros Hd H. destruct (sim_parts c num_b Hs) as [Ha [Hp [Hz Hw]]]. pose proof relabel_simulates as Hs'. destruct (sim_parts c' num_b' Hs') as [Ha' [Hp' [Hz' Hw']]].
  assert (Hx := hb_guess_exists mode x H). apply hb_ok in H; [|assumption]. destruct H as [Ec [_ [g [rm [v [o [G [ER [L R]]]]]]]]].
  rewrite Ec in Hd. exists v, o. unfold harmonic_balance. pose proof Hz' as Hz2. apply all_zero_false in Hz2. rewrite Hz2, Hw'. cbn [negb].
  set (g' := match vj0' with Some a => Some a | None => default_guess (h_q c') (clamp_vt (h_vt c')) (h_zt c') zj end).
  assert (Hg' : exists a, g' = Some a /\ agree q' (start c' vj0' zj) a).
  { unfold g'. unfold relabel_guess, start. destruct vj0 as [a|]; cbn [option_map].
    - eexists. split; [reflexivity|]. intros ? ? ? _ _. reflexivity.
    - destruct (relabel_default (Hx eq_refl)) as [a Ea]. exists a. split; [exact Ea|]. unfold default_guess in Ea. destruct (forallb _ _); [|discriminate]. injection Ea as <-.
      intros f p i [Hf Hp2] Hi. now rewrite clamp_source by lia. }
  destruct Hg' as [a [-> G']]. destruct (matrix_built q' resp num_b' Ha') as [rm' ER'].
  change (h_q c') with q'. rewrite ER'. cbn [q_num_f q_num_p q_npts permute_cct].
  destruct (newton_rel n (q_npts q) (qt_current_for_hb J q resp num_b (Some rm)) (qt_current_for_hb J q' resp num_b' (Some rm')) inv inv'
    (flat2 P (clamp_vt (h_vt c))) (flat2 P (h_zt c)) (flat2 P (clamp_vt (h_vt c'))) (flat2 P (h_zt c')) damp move Hinv Hinv' move_perm) with
    (stop := stop) (max_it := max_it) (its := zrange 0 (max_it + 1)) (v := flat3 P g) (v' := flat3 P a)
    (last := {| l_iter := 0; l_mask := None; l_why := RanOut |}) (last' := {| l_iter := 0; l_mask := None; l_why := RanOut |}) (w := v) (o := o) as [v' [o' [L' [S1 S2]]]].
  - intros k Hk. unfold flat2. destruct (move_fp k Hk) as [-> ->]. destruct (sig_range F P k Hk) as [A B]. pose proof (sigma_range _ A).
    rewrite !clamp_source by lia. reflexivity.
  - intros k Hk. unfold flat2. now destruct (move_fp k Hk) as [-> ->].
  - intros u u' ij. now apply relabel_qt.
  - pose proof P_pos. destruct Ha as [? _]. nia.
  - exact Hp.
  - intros k i Hk Hi. unfold flat3. destruct (move_fp k Hk) as [-> ->]. destruct (sig_range F P k Hk) as [A B]. pose proof (sigma_range _ A).
    rewrite <- (G' (sig_f P k) (sig_p P k) i); [|split; assumption|exact Hi]. rewrite <- (G (sigma (sig_f P k)) (sig_p P k) i); [|split; assumption|exact Hi]. apply relabel_start.
  - split; [reflexivity|]. split; [reflexivity|exact I].
  - intros m u iu M Eu k i Hk Hi [U1 U2]. destruct (sig_range F P k Hk) as [A B].
    assert (Cm : corrections J (clamped c) resp num_b damp m (start c vj0 zj) (unflat P u)) by (eapply corrections_start; [exact G|]; exact (msteps_corrections J inv c resp num_b rm Ha ER (proj1 Hinv) damp m g u M)).
    apply (Hd m (unflat P u) Cm (sig_f P k) (sig_p P k) i); [split; assumption|exact Hi|]. split; [rewrite unflat_k by apply P_pos; exact U1|].
    destruct (qt_for_hb J q resp num_b rm u Ha ER) as [iu0 [E0 H0]]. rewrite Eu in E0. injection E0 as <-.
    rewrite <- (residual_at_2d J c resp num_b u iu k i Ha Hk (H0 k i Hk Hi)). exact U2.
  - exact L.
  - fold (run_newton n (q_npts q) (qt_current_for_hb J q' resp num_b' (Some rm')) inv' (flat2 P (clamp_vt (h_vt c'))) (flat2 P (h_zt c')) stop damp max_it (flat3 P a)) in L'.
    rewrite L'. exists v', o'. split; [exact R|]. split; [reflexivity|]. split; assumption.
Qed.

Lemma unflat_move v v' : (forall k i, (k < n)%nat -> (i < q_npts q)%nat -> v' k i = v (move k) i) ->
  everywhere q (fun f p i => unflat P v' f p i = unflat P v (sigma f) p i).
Proof.
  intros H f p i [Hf Hp] Hi. pose proof (sigma_range f Hf). rewrite !unflat_sig by lia. rewrite H; [|now apply sig_k_bound|assumption].
  unfold move. destruct (sig_k_fp P f p) as [-> ->]; [lia|lia|reflexivity].
Qed.

Lemma relabel_x v it flag :
  (forall m u, corrections J (r_cct (call "x")) resp num_b damp m (start c vj0 zj) u ->
     everywhere q (fun f p i => ~ undefined J (r_cct (call "x")) resp num_b u f p i)) ->
  r_ret (call "x") = Ok (RetX v it flag) ->
  exists v', r_ret (call' "x") = Ok (RetX v' it flag) /\ everywhere q (fun f p i => v' f p i = v (sigma f) p i).
Proof.
  intros Hd H. destruct (relabel_loop "x" _ Hd H) as [w [o [w' [o' [R [R' [M [E1 [E2 E3]]]]]]]]]. apply ret_x in R. injection R as -> -> ->.
  exists (unflat P w'). split; [|now apply unflat_move]. rewrite R'. unfold ret_of. cbn [String.eqb Ascii.eqb Bool.eqb]. now rewrite E1.
Qed.
Lemma relabel_m v mask :
  (forall m u, corrections J (r_cct (call "m")) resp num_b damp m (start c vj0 zj) u ->
     everywhere q (fun f p i => ~ undefined J (r_cct (call "m")) resp num_b u f p i)) ->
  r_ret (call "m") = Ok (RetM v mask) ->
  exists v' mask', r_ret (call' "m") = Ok (RetM v' mask') /\ everywhere q (fun f p i => v' f p i = v (sigma f) p i) /\
    forall i, (i < q_npts q)%nat -> mask' i = mask i.
Proof.
  intros Hd H. destruct (relabel_loop "m" _ Hd H) as [w [o [w' [o' [R [R' [M [E1 [E2 E3]]]]]]]]]. apply ret_m in R. destruct R as [m [Em R]]. injection R as -> ->.
  rewrite Em in E3. destruct (l_mask o') as [m'|] eqn:Em'; [|contradiction]. exists (unflat P w'), m'. split; [|split; [now apply unflat_move|exact E3]].
  rewrite R'. unfold ret_of. cbn [String.eqb Ascii.eqb Bool.eqb]. now rewrite Em'.
Qed.
End Calls.
