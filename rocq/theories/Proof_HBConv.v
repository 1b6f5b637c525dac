(** harmonic_balance converges if the junction voltages hardly change the voltages across the
    embedding impedances. *)
From Coq Require Import List ZArith Lia Bool Arith Reals Lra String.
From Coquelicot Require Import Complex.
From Verif Require Import Base Sums Round Model_QtCurrent Spec_QtCurrent Spec_QtApi Proof_QtCurrent Proof_QtCurrent2 Proof_QtSym
  Proof_QtApi Proof_QtApi2 Model_Circuit Proof_Circuit Model_HB Spec_HB Spec_HB2 Spec_HBConv Proof_HB Proof_HB2 Proof_HB3 Proof_HB4 Proof_HB5 Proof_HB8 Proof_HB9 Proof_HB10.
Import ListNotations.
Local Notation length := List.length.
Open Scope R_scope.

(** ** Matrices without a kernel have an inverse *)
Lemma solve_any n M b : (forall y, (forall a, (a < n)%nat -> rsum_to n (fun j => M a j * y j) = 0) -> forall j, (j < n)%nat -> y j = 0) ->
  exists x, forall a, (a < n)%nat -> rsum_to n (fun j => M a j * x j) = b a.
Proof.
  intros K. destruct (underdetermined n (fun i j => if (j <? n)%nat then M i j else b i)) as [y [[j [Hj Ny]] Ey]].
  assert (E : forall a, (a < n)%nat -> rsum_to n (fun k => M a k * y k) + b a * y n = 0).
  { intros i Hi. specialize (Ey i Hi). cbn [rsum_to] in Ey. rewrite Nat.ltb_irrefl in Ey. rewrite <- Ey. f_equal. apply rsum_to_ext. intros k Hk. destruct (Nat.ltb_spec k n); [reflexivity|lia]. }
  assert (Z : y n <> 0). { intros Z. apply Ny. destruct (Nat.eq_dec j n) as [->|N]; [assumption|]. apply (K y); [|lia]. intros a Ha. specialize (E a Ha). rewrite Z in E. lra. }
  exists (fun k => - y k / y n). intros a Ha. rewrite (rsum_to_ext n _ (fun k => (- / y n) * (M a k * y k))) by (intros; field; assumption). rewrite rsum_to_scal. specialize (E a Ha).
  replace (rsum_to n (fun k => M a k * y k)) with (- (b a * y n)) by lra. field. assumption.
Qed.
Lemma choose n (Q : nat -> (nat -> R) -> Prop) : (forall c, (c < n)%nat -> exists x, Q c x) -> exists N : nat -> nat -> R, forall c, (c < n)%nat -> Q c (N c).
Proof.
  induction n as [|n IH]; intros H; [exists (fun _ _ => 0); intros; lia|]. destruct IH as [N HN]; [intros c Hc; apply H; lia|]. destruct (H n ltac:(lia)) as [x Hx].
  exists (fun c => if (c =? n)%nat then x else N c). intros c Hc. destruct (Nat.eqb_spec c n) as [->|]; [assumption|apply HN; lia].
Qed.
Lemma inverse_exists n M : (forall y, (forall a, (a < n)%nat -> rsum_to n (fun j => M a j * y j) = 0) -> forall j, (j < n)%nat -> y j = 0) -> exists N, right_inverse n M N.
Proof.
  intros K. destruct (choose n (fun c x => forall a, (a < n)%nat -> rsum_to n (fun j => M a j * x j) = if (a =? c)%nat then 1 else 0)) as [N HN].
  { intros c Hc. exact (solve_any n M (fun a => if (a =? c)%nat then 1 else 0) K). }
  exists (fun b c => N c b). intros a c Ha Hc. exact (HN c Hc a Ha).
Qed.

(** ** Sums over signals *)
Lemma rsum_to_le n f g : (forall k, (k < n)%nat -> f k <= g k) -> rsum_to n f <= rsum_to n g.
Proof. induction n as [|n IH]; intros H; cbn [rsum_to]; [lra|]. specialize (H n ltac:(lia)) as Hn. specialize (IH ltac:(intros; apply H; lia)). lra. Qed.
Lemma rsum_to_ge0 n f : (forall k, (k < n)%nat -> 0 <= f k) -> 0 <= rsum_to n f.
Proof. intros H. rewrite <- (rsum_to_0 n). now apply rsum_to_le. Qed.
Lemma rsum_to_term n f k : (forall k, (k < n)%nat -> 0 <= f k) -> (k < n)%nat -> f k <= rsum_to n f.
Proof.
  induction n as [|n IH]; intros H K; [lia|]. cbn [rsum_to]. destruct (Nat.eq_dec k n) as [->|N].
  - assert (0 <= rsum_to n f) by (apply rsum_to_ge0; intros; apply H; lia). lra.
  - specialize (IH ltac:(intros; apply H; lia) ltac:(lia)). specialize (H n ltac:(lia)). lra.
Qed.
Section Total.
Variable q : qcct.
Lemma total_le a b : (forall f p, signal q f p -> a f p <= b f p) -> total q a <= total q b.
Proof. intros H. apply rsum_to_le. intros f Hf. apply rsum_to_le. intros p Hp. apply H. split; lia. Qed.
Lemma total_ext a b : (forall f p, signal q f p -> a f p = b f p) -> total q a = total q b.
Proof. intros H. apply rsum_to_ext. intros f Hf. apply rsum_to_ext. intros p Hp. apply H. split; lia. Qed.
Lemma total_plus a b : total q (fun f p => a f p + b f p) = total q a + total q b.
Proof. unfold total. rewrite <- rsum_to_plus. apply rsum_to_ext. intros f _. apply rsum_to_plus. Qed.
Lemma total_scal k a : total q (fun f p => k * a f p) = k * total q a.
Proof. unfold total. rewrite <- rsum_to_scal. apply rsum_to_ext. intros f _. apply rsum_to_scal. Qed.
Lemma total_0 : total q (fun _ _ => 0) = 0.
Proof. unfold total. rewrite (rsum_to_ext _ _ (fun _ => 0)); [apply rsum_to_0|]. intros. apply rsum_to_0. Qed.
Lemma total_ge0 a : (forall f p, signal q f p -> 0 <= a f p) -> 0 <= total q a.
Proof. intros H. rewrite <- total_0. now apply total_le. Qed.
Lemma total_term a f p : (forall f p, signal q f p -> 0 <= a f p) -> signal q f p -> a f p <= total q a.
Proof.
  intros H [F P]. replace f with (S (f - 1)) by lia. replace p with (S (p - 1)) by lia.
  apply Rle_trans with (rsum_to (q_num_p q) (fun p => a (S (f - 1)) (S p))); [apply (rsum_to_term (q_num_p q) (fun p => a (S (f - 1)) (S p))); [intros; apply H; split; lia|lia]|].
  unfold total. apply (rsum_to_term (q_num_f q) (fun f => rsum_to (q_num_p q) (fun p => a (S f) (S p)))); [|lia]. intros k Hk. apply rsum_to_ge0. intros; apply H; split; lia.
Qed.
Lemma total_swap (a : nat -> nat -> nat -> nat -> R) : total q (fun f p => total q (fun g m => a f p g m)) = total q (fun g m => total q (fun f p => a f p g m)).
Proof.
  unfold total. rewrite (rsum_to_ext (q_num_f q) _ (fun f => rsum_to (q_num_f q) (fun g => rsum_to (q_num_p q) (fun m => rsum_to (q_num_p q) (fun p => a (S f) (S p) (S g) (S m)))))).
  - rewrite rsum_to_exchange. apply rsum_to_ext. intros g _. apply rsum_to_exchange.
  - intros f _. rewrite rsum_to_exchange. apply rsum_to_ext. intros g _. apply rsum_to_exchange.
Qed.
Lemma csum_mod n f : Cmod (csum (seq 1 n) f)%C <= rsum_to n (fun k => Cmod (f (S k))%C).
Proof.
  rewrite <- seq_shift, csum_map. induction n as [|n IH]; [cbn; rewrite Cmod_0; lra|]. rewrite csum_seq_S. cbn [rsum_to]. eapply Rle_trans; [apply Cmod_triangle|]. lra.
Qed.
Lemma ssum_mod h : Cmod (ssum (q_num_f q) (q_num_p q) h)%C <= total q (fun f p => Cmod (h f p)%C).
Proof. unfold ssum. eapply Rle_trans; [apply csum_mod|]. apply rsum_to_le. intros k _. apply csum_mod. Qed.
End Total.
Lemma parts_mod z : Rabs (Re z) + Rabs (Im z) <= 3 / 2 * Cmod z.
Proof.
  pose proof (Cmod_ge_0 z) as M. assert (E : Cmod z * Cmod z = Re z * Re z + Im z * Im z). { unfold Cmod. rewrite sqrt_sqrt; [unfold Re, Im; ring|]. pose proof (pow2_ge_0 (fst z)). pose proof (pow2_ge_0 (snd z)). lra. }
  pose proof (Rabs_pos (Re z)). pose proof (Rabs_pos (Im z)). assert (A : Rabs (Re z) * Rabs (Re z) = Re z * Re z) by (rewrite <- Rabs_mult; apply Rabs_right; apply Rle_ge, Rle_0_sqr). assert (B : Rabs (Im z) * Rabs (Im z) = Im z * Im z) by (rewrite <- Rabs_mult; apply Rabs_right; apply Rle_ge, Rle_0_sqr).
  apply Rsqr_incr_0_var; [unfold Rsqr|lra]. pose proof (Rle_0_sqr (Rabs (Re z) - Rabs (Im z))) as Q. unfold Rsqr in Q. nra.
Qed.

(** ** One correction *)
Section Step.
Variable J : nat -> R -> R.
Variables (c : hcct) (resp : R -> C) (num_b : numb).
Local Notation q := (h_q c).
Local Notation r := (residual_at J c resp num_b).
Local Notation cur := (current_at J q resp num_b).
Local Notation quotient v g m dv f p i := (Cdiv (Cminus (r (bumped v g m dv) f p i) (r v f p i)) (RtoC (/ 10 ^ 3))).
Definition linear (v x : arr3) (i f p : nat) : C := ssum (q_num_f q) (q_num_p q) (fun g m =>
  Cplus (Cmult (RtoC (Re (x g m i))) (quotient v g m (RtoC (/ 10 ^ 3)) f p i)) (Cmult (RtoC (Im (x g m i))) (quotient v g m (Cmult Ci (RtoC (/ 10 ^ 3))) f p i))).
Lemma distance_bumped v g m dv i : signal q g m -> distance q (bumped v g m dv) v i = Cmod dv.
Proof.
  intros [G M]. unfold distance, total. replace (Cmod dv) with (rsum_to (q_num_f q) (fun f => (if (g - 1 =? f)%nat then 1 else 0) * Cmod dv)) by (rewrite rsum_to_delta by lia; reflexivity).
  apply rsum_to_ext. intros f _. destruct (Nat.eqb_spec (g - 1) f) as [E|E].
  - replace (1 * Cmod dv) with (rsum_to (q_num_p q) (fun p => (if (m - 1 =? p)%nat then 1 else 0) * Cmod dv)) by (rewrite rsum_to_delta by lia; ring). apply rsum_to_ext. intros p _. unfold bumped.
    destruct (Nat.eqb_spec (S f) g); [|lia]. destruct (Nat.eqb_spec (m - 1) p) as [E2|E2]; destruct (Nat.eqb_spec (S p) m); try lia; cbn [andb].
    + rewrite Rmult_1_l. f_equal. ring.
    + rewrite Rmult_0_l. replace (v (S f) (S p) i - v (S f) (S p) i)%C with (RtoC 0) by ring. apply Cmod_0.
  - rewrite Rmult_0_l. rewrite (rsum_to_ext _ _ (fun _ => 0)); [apply rsum_to_0|]. intros p _. unfold bumped. destruct (Nat.eqb_spec (S f) g); [lia|]. cbn [andb]. replace (v (S f) (S p) i - v (S f) (S p) i)%C with (RtoC 0) by ring. apply Cmod_0.
Qed.
Variable k : R.
Hypothesis F : follows J c resp num_b k.

Lemma linear_part v x i : (i < q_npts q)%nat -> total q (fun f p => Cmod (linear v x i f p + x f p i)%C) <= 3 / 2 * k * total q (fun f p => Cmod (x f p i)%C).
Proof.
  intros I. set (h := RtoC (/ 10 ^ 3)). assert (h0 : h <> RtoC 0) by exact step_neq0. assert (hm : Cmod h = / 10 ^ 3) by (unfold h; rewrite Cmod_R, Rabs_right; lra). assert (hi : Cmod (Cmult Ci h)%C = / 10 ^ 3). { rewrite Cmod_mult, hm. replace (Cmod Ci) with 1; [ring|]. unfold Cmod, Ci. cbn [fst snd]. replace (0 ^ 2 + 1 ^ 2) with 1 by ring. now rewrite sqrt_1. }
  set (K := fun dv g m f p => Cdiv (Cmult (h_zt c f p) (Cminus (cur (bumped v g m dv) f p i) (cur v f p i))) h).
  assert (E : forall f p, signal q f p -> (linear v x i f p + x f p i)%C = Copp (ssum (q_num_f q) (q_num_p q) (fun g m => Cplus (Cmult (RtoC (Re (x g m i))) (K h g m f p)) (Cmult (RtoC (Im (x g m i))) (K (Cmult Ci h) g m f p))))).
  { intros f p [Hf Hp]. unfold linear.
    rewrite (ssum_ext _ _ _ (fun g m => Cplus (Cmult (Copp (RtoC 1)) (Cplus (Cmult (RtoC (Re (x g m i))) (K h g m f p)) (Cmult (RtoC (Im (x g m i))) (K (Cmult Ci h) g m f p)))) (if ((g =? f) && (m =? p))%nat then Copp (x g m i) else RtoC 0))).
    - rewrite ssum_plus, ssum_scal, ssum_single by assumption. ring.
    - intros g m _ _. unfold residual_at, K. fold h. rewrite (Nat.eqb_sym g f), (Nat.eqb_sym m p).
      assert (B1 : bumped v g m h f p i = Cplus (v f p i) (if ((f =? g) && (p =? m))%nat then h else RtoC 0)) by (unfold bumped; destruct ((f =? g) && (p =? m))%nat; ring).
      assert (B2 : bumped v g m (Cmult Ci h) f p i = Cplus (v f p i) (if ((f =? g) && (p =? m))%nat then Cmult Ci h else RtoC 0)) by (unfold bumped; destruct ((f =? g) && (p =? m))%nat; ring).
      rewrite B1, B2. destruct ((f =? g) && (p =? m))%nat eqn:E.
      + assert (X : x g m i = Cplus (RtoC (Re (x g m i))) (Cmult Ci (RtoC (Im (x g m i))))) by (unfold Re, Im, Cplus, Cmult, RtoC, Ci; cbn [fst snd]; destruct (x g m i); cbn [fst snd]; f_equal; ring). rewrite X at 5. field. exact h0.
      + field. exact h0. }
  rewrite (total_ext q _ (fun f p => Cmod (ssum (q_num_f q) (q_num_p q) (fun g m => Cplus (Cmult (RtoC (Re (x g m i))) (K h g m f p)) (Cmult (RtoC (Im (x g m i))) (K (Cmult Ci h) g m f p))))%C)) by (intros f p S; rewrite (E f p S); apply Cmod_opp).
  eapply Rle_trans; [apply total_le; intros f p _; apply ssum_mod|].
  assert (KB : forall dv g m, signal q g m -> Cmod dv = / 10 ^ 3 -> total q (fun f p => Cmod (K dv g m f p)%C) <= k).
  { intros dv g m S D. pose proof (F (bumped v g m dv) v i I) as B. rewrite distance_bumped, D in B by assumption.
    rewrite (total_ext q _ (fun f p => 10 ^ 3 * Cmod (h_zt c f p * (cur (bumped v g m dv) f p i - cur v f p i))%C)); [rewrite total_scal; lra|]. intros f p _. unfold K. rewrite Cmod_div by exact h0. rewrite hm. field. }
  apply Rle_trans with (total q (fun g m => total q (fun f p => Rabs (Re (x g m i)) * Cmod (K h g m f p)%C + Rabs (Im (x g m i)) * Cmod (K (Cmult Ci h) g m f p)%C))).
  { rewrite total_swap. apply total_le. intros g m _. apply total_le. intros f p _. eapply Rle_trans; [apply Cmod_triangle|]. rewrite !Cmod_mult, !Cmod_R. lra. }
  rewrite <- total_scal. apply total_le. intros g m S. rewrite total_plus, !total_scal. pose proof (KB h g m S hm) as B1. pose proof (KB _ g m S hi) as B2. pose proof (parts_mod (x g m i)) as PM. pose proof (Rabs_pos (Re (x g m i))) as P1. pose proof (Rabs_pos (Im (x g m i))) as P2.
  assert (K0 : 0 <= k). { eapply Rle_trans; [|exact B1]. apply total_ge0. intros. apply Cmod_ge_0. }
  apply Rle_trans with (Rabs (Re (x g m i)) * k + Rabs (Im (x g m i)) * k); [apply Rplus_le_compat; apply Rmult_le_compat_l; assumption|]. rewrite <- Rmult_plus_distr_r. apply Rle_trans with (3 / 2 * Cmod (x g m i)%C * k); [apply Rmult_le_compat_r; assumption|lra].
Qed.
Lemma k_pos i : (i < q_npts q)%nat -> (1 <= q_num_f q)%nat -> (1 <= q_num_p q)%nat -> 0 <= k.
Proof.
  intros I NF NP. pose proof (F (bumped (fun _ _ _ => RtoC 0) 1 1 (RtoC 1)) (fun _ _ _ => RtoC 0) i I) as B. rewrite distance_bumped in B by (split; lia). rewrite Cmod_1, Rmult_1_r in B. eapply Rle_trans; [|exact B]. apply total_ge0. intros. apply Cmod_ge_0.
Qed.
Lemma linear_injective v x i : (i < q_npts q)%nat -> k < 1 / 4 -> (forall f p, signal q f p -> linear v x i f p = RtoC 0) -> forall f p, signal q f p -> x f p i = RtoC 0.
Proof.
  intros I K H f p S. pose proof (linear_part v x i I) as L. rewrite (total_ext q _ (fun f p => Cmod (x f p i)%C)) in L by (intros g m G; rewrite H by assumption; f_equal; ring).
  assert (T0 : 0 <= total q (fun f p => Cmod (x f p i)%C)) by (apply total_ge0; intros; apply Cmod_ge_0). assert (T : total q (fun f p => Cmod (x f p i)%C) = 0) by nra.
  pose proof (total_term q (fun f p => Cmod (x f p i)%C) f p (fun _ _ _ => Cmod_ge_0 _) S) as B. cbv beta in B. rewrite T in B. apply Cmod_eq_0. pose proof (Cmod_ge_0 (x f p i)). lra.
Qed.
Lemma contracts d v v' i : (i < q_npts q)%nat -> 0 <= k < 1 / 4 -> 0 <= d <= 1 -> corrected J c resp num_b d v v' -> imbalance J c resp num_b v' i <= left_over k d * imbalance J c resp num_b v i.
Proof.
  intros I K D [x [NC HV]]. set (X := total q (fun f p => Cmod (x f p i)%C)). set (Y := fun f p => (linear v x i f p + x f p i)%C).
  assert (EX : forall f p, signal q f p -> x f p i = Cplus (r v f p i) (Y f p)).
  { intros f p S. specialize (NC f p i S I). cbv zeta in NC. unfold Y. change (linear v x i f p = Copp (r v f p i)) in NC. rewrite NC. ring. }
  pose proof (linear_part v x i I) as LY. fold X in LY. change (total q (fun f p => Cmod (Y f p)%C) <= 3 / 2 * k * X) in LY.
  assert (X0 : 0 <= X) by (apply total_ge0; intros; apply Cmod_ge_0).
  assert (XR : X <= imbalance J c resp num_b v i + 3 / 2 * k * X).
  { apply Rle_trans with (total q (fun f p => Cmod (r v f p i)%C + Cmod (Y f p)%C)); [apply total_le; intros f p S; rewrite (EX f p S) at 1; apply Cmod_triangle|]. rewrite total_plus. unfold imbalance. lra. }
  pose proof (F v' v i I) as FV.
  assert (DV' : distance q v' v i = d * X). { unfold distance, X. rewrite <- total_scal. apply total_ext. intros f p S. rewrite (HV f p i S I). replace (v f p i + x f p i * RtoC d - v f p i)%C with (x f p i * RtoC d)%C by ring. rewrite Cmod_mult, Cmod_R, Rabs_right by lra. ring. }
  rewrite DV' in FV.
  assert (B : imbalance J c resp num_b v' i <= (1 - d) * imbalance J c resp num_b v i + d * (3 / 2 * k * X) + k * (d * X)).
  { apply Rle_trans with (total q (fun f p => ((1 - d) * Cmod (r v f p i)%C + d * Cmod (Y f p)%C) + Cmod (h_zt c f p * (cur v' f p i - cur v f p i))%C)).
    - apply total_le. intros f p S. assert (E : r v' f p i = (RtoC (1 - d) * r v f p i + RtoC d * - Y f p - h_zt c f p * (cur v' f p i - cur v f p i))%C).
      { pose proof (EX f p S) as E1. assert (EY : Y f p = (x f p i - r v f p i)%C) by (rewrite E1; ring). rewrite EY. unfold residual_at. rewrite (HV f p i S I). rewrite RtoC_minus. ring. }
      rewrite E. unfold Cminus. eapply Rle_trans; [apply Cmod_triangle|]. rewrite Cmod_opp. apply Rplus_le_compat_r. eapply Rle_trans; [apply Cmod_triangle|]. rewrite !Cmod_mult, Cmod_opp, !Cmod_R, !Rabs_right by lra. lra.
    - rewrite !total_plus, !total_scal. fold (imbalance J c resp num_b v i). assert (d * total q (fun f p => Cmod (Y f p)%C) <= d * (3 / 2 * k * X)) by (apply Rmult_le_compat_l; lra). lra. }
  unfold left_over. set (R0 := imbalance J c resp num_b v i) in *.
  assert (XB : X <= 2 / (2 - 3 * k) * R0). { apply Rmult_le_reg_l with (2 - 3 * k); [lra|]. replace ((2 - 3 * k) * (2 / (2 - 3 * k) * R0)) with (2 * R0) by (field; lra). lra. }
  apply Rle_trans with ((1 - d) * R0 + d * (5 / 2 * k) * X); [lra|].
  apply Rle_trans with ((1 - d) * R0 + d * (5 / 2 * k) * (2 / (2 - 3 * k) * R0)).
  - apply Rplus_le_compat_l. apply Rmult_le_compat_l; [|exact XB]. apply Rmult_le_pos; lra.
  - right. field. lra.
Qed.
Lemma left_over_bound d : 0 <= k < 1 / 4 -> 0 < d <= 1 -> 0 <= left_over k d < 1.
Proof.
  intros K D. unfold left_over. assert (0 <= 5 * k / (2 - 3 * k) < 1).
  { split; [apply Rmult_le_pos; [lra|apply Rlt_le, Rinv_0_lt_compat; lra]|]. apply Rmult_lt_reg_r with (2 - 3 * k); [lra|]. unfold Rdiv. rewrite Rmult_assoc, Rinv_l by lra. lra. }
  split; nra.
Qed.
(** Voltages near balance are near the solution. *)
Lemma near_solution v s i : (i < q_npts q)%nat -> 0 <= k < 1 -> solution J c resp num_b s -> (1 - k) * distance q v s i <= imbalance J c resp num_b v i.
Proof.
  intros I K S. pose proof (F v s i I) as FV.
  assert (B : distance q v s i <= imbalance J c resp num_b v i + total q (fun f p => Cmod (h_zt c f p * (cur v f p i - cur s f p i))%C)).
  { unfold distance, imbalance. rewrite <- total_plus. apply total_le. intros f p SG. specialize (S f p i SG I). replace (v f p i - s f p i)%C with (- (r v f p i - r s f p i) + - (h_zt c f p * (cur v f p i - cur s f p i)))%C by (unfold residual_at; ring). rewrite S. eapply Rle_trans; [apply Cmod_triangle|]. rewrite !Cmod_opp. replace (r v f p i - RtoC 0)%C with (r v f p i) by ring. lra. }
  lra.
Qed.
Lemma solution_unique s s' : 0 <= k < 1 -> solution J c resp num_b s -> solution J c resp num_b s' -> agree q s s'.
Proof.
  intros K S S' f p i SG I. pose proof (near_solution s s' i I K S') as B. assert (E : imbalance J c resp num_b s i = 0). { unfold imbalance. rewrite <- (total_0 q). apply total_ext. intros g m G. rewrite (S g m i G I). apply Cmod_0. }
  rewrite E in B. pose proof (total_term q (fun f p => Cmod (s f p i - s' f p i)%C) f p (fun _ _ _ => Cmod_ge_0 _) SG) as T. cbv beta in T. fold (distance q s s' i) in T. pose proof (Cmod_ge_0 (s f p i - s' f p i)%C) as C0.
  assert (D : distance q s s' i <= 0) by nra. assert (Z : (s f p i - s' f p i)%C = RtoC 0) by (apply Cmod_eq_0; lra). replace (s f p i) with (s f p i - s' f p i + s' f p i)%C by ring. rewrite Z. ring.
Qed.
End Step.
