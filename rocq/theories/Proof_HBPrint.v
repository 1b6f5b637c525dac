(** The messages do not change the calculation; sorting, largest element and median. *)
From Coq Require Import List ZArith Lia Bool Arith Reals Lra String Permutation Sorted.
From Coquelicot Require Import Complex.
From Verif Require Import Base Sums Round Model_QtCurrent Spec_QtCurrent Spec_QtApi Model_Circuit Model_HB Model_Misc Model_Print Model_HBPrint Spec_HB Spec_HBPrint
  Proof_QtCurrent Proof_HB.
Import ListNotations.
Local Notation length := List.length.
Open Scope list_scope.
Open Scope R_scope.

Section Loop.
Variables num_n num_p npts : nat.
Variable qt : arr2 -> res arr2.
Variable inv : nat -> (nat -> nat -> R) -> option (nat -> nat -> R).
Variables vt zt : nat -> C.
Variables stop damp : R.
Variable max_it : Z.
Variable verbose : bool.
Variable call_time : R.
Let col (vj : arr2) (q : nat) := let* ij_re := qt (bump (RtoC 1) q vj) in let* ij_im := qt (bump Ci q vj) in
  Ok (residual vt zt ij_re (bump (RtoC 1) q vj), residual vt zt ij_im (bump Ci q vj)).

Lemma columns_erase vj qs : snd (columns_p num_n qt vt zt verbose vj qs) = mapM (col vj) qs.
Proof.
  induction qs as [|q qs IH]; [reflexivity|]. cbn [columns_p mapM]. fold (col vj q). destruct (col vj q) as [x|e]; [|reflexivity].
  cbn [bind]. rewrite <- IH. destruct (columns_p num_n qt vt zt verbose vj qs) as [out r]. reflexivity.
Qed.
Lemma columns_out vj qs l : snd (columns_p num_n qt vt zt verbose vj qs) = Ok l -> fst (columns_p num_n qt vt zt verbose vj qs) = say verbose (map (fun q => Progress q num_n) qs).
Proof.
  revert l. induction qs as [|q qs IH]; intros l; [destruct verbose; reflexivity|]. cbn [columns_p]. fold (col vj q).
  destruct (col vj q) as [x|e]; [|discriminate].
  destruct (columns_p num_n qt vt zt verbose vj qs) as [out r]. cbn [snd fst] in *. destruct r as [l0|]; [|discriminate]. intros _. rewrite (IH l0 eq_refl). destruct verbose; reflexivity.
Qed.
Lemma inv_jacobian_erase err vj : snd (inv_jacobian_p num_n npts qt inv vt zt verbose err vj) = inv_jacobian num_n npts qt inv vt zt err vj.
Proof.
  unfold inv_jacobian_p, inv_jacobian, jacobian. pose proof (columns_erase vj (seq 0 num_n)) as E. fold (col vj).
  destruct (columns_p num_n qt vt zt verbose vj (seq 0 num_n)) as [out r]. cbn [snd] in E. rewrite <- E. destruct r as [cols|e]; reflexivity.
Qed.
Lemma inv_jacobian_out err vj js : snd (inv_jacobian_p num_n npts qt inv vt zt verbose err vj) = Ok js ->
  fst (inv_jacobian_p num_n npts qt inv vt zt verbose err vj) = say verbose (map (fun q => Progress q num_n) (seq 0 (S num_n))).
Proof.
  unfold inv_jacobian_p. pose proof (columns_out vj (seq 0 num_n)) as E. destruct (columns_p num_n qt vt zt verbose vj (seq 0 num_n)) as [out r]. cbn [snd fst] in E.
  destruct r as [cols|e]; [|discriminate]. intros _. cbn [fst]. rewrite (E cols eq_refl). rewrite seq_S, map_app. cbn [plus map]. destruct verbose; reflexivity.
Qed.
Lemma newton_erase its : forall vj last, snd (newton_p num_n num_p npts qt inv vt zt stop damp max_it verbose call_time its vj last) =
  newton num_n npts qt inv vt zt stop damp max_it its vj last.
Proof.
  induction its as [|it its IH]; intros vj last; [reflexivity|]. cbn [newton_p newton]. destruct (qt vj) as [ij|e]; [|reflexivity].
  destruct (xle_r _ stop); [reflexivity|]. destruct (xgt_r _ stop && _); [reflexivity|].
  pose proof (inv_jacobian_erase (residual vt zt ij vj) vj) as E. destruct (inv_jacobian_p num_n npts qt inv vt zt verbose (residual vt zt ij vj) vj) as [bars r]. cbn [snd] in E. rewrite <- E.
  destruct r as [js|e]; [|reflexivity]. rewrite <- IH. 
  match goal with |- context [newton_p ?a ?b ?c ?d ?e ?f ?g ?h ?i ?j ?k ?l its ?m ?n] => destruct (newton_p a b c d e f g h i j k l its m n) as [rest x] end. reflexivity.
Qed.
End Loop.

Lemma hb_erase J inv verbose ct st c resp num_b max_it stop vj0 damp mode zj :
  snd (harmonic_balance_p J inv verbose ct st c resp num_b max_it stop vj0 damp mode zj) = harmonic_balance J inv c resp num_b max_it stop vj0 damp mode zj.
Proof.
  unfold harmonic_balance_p, harmonic_balance. destruct (all_zero _ _ _); [reflexivity|]. destruct (negb (h_wvt c)); [reflexivity|].
  destruct (match vj0 with Some a => Some a | None => _ end) as [g|]; [|reflexivity]. destruct (interpolate_respfn _ _ _) as [rm|e]; [|reflexivity].
  unfold run_newton. rewrite <- (newton_erase _ (q_num_p (h_q c)) _ _ _ _ _ _ _ _ verbose ct).
  match goal with |- context [newton_p ?a ?b ?c ?d ?e ?f ?g ?h ?i ?j ?k ?l ?m ?n ?o] => destruct (newton_p a b c d e f g h i j k l m n o) as [lines [vj r]] end. reflexivity.
Qed.

(** ** Lists of errors *)
Lemma xleb_le a b : a <> NaN -> b <> NaN -> xleb a b = true <-> error_le a b.
Proof.
  intros A B. destruct a as [x| |], b as [y| |]; try contradiction; cbn; try tauto; try (split; [discriminate|tauto]).
  unfold Rleb. destruct (Rle_dec x y); split; try tauto; discriminate.
Qed.
Lemma error_le_total a b : a <> NaN -> b <> NaN -> error_le a b \/ error_le b a.
Proof. intros A B. destruct a as [x| |], b as [y| |]; try contradiction; cbn; try tauto. lra. Qed.
Lemma error_le_trans a b c : error_le a b -> error_le b c -> error_le a c.
Proof. destruct a as [x| |], b as [y| |], c as [z| |]; cbn; try tauto. lra. Qed.
Lemma error_le_refl a : a <> NaN -> error_le a a.
Proof. destruct a; cbn; try tauto. intros; lra. Qed.

Lemma xinsert_perm a l : Permutation (a :: l) (xinsert a l).
Proof. induction l as [|b l IH]; [reflexivity|]. cbn. destruct (xleb a b); [reflexivity|]. rewrite perm_swap. now constructor. Qed.
Lemma xsort_perm l : Permutation l (xsort l).
Proof. induction l as [|a l IH]; [reflexivity|]. cbn. rewrite <- xinsert_perm. now constructor. Qed.
Lemma xinsert_sorted a l : a <> NaN -> ~ In NaN l -> StronglySorted error_le l -> StronglySorted error_le (xinsert a l).
Proof.
  intros A N H. induction H as [|b l H IH F]; [repeat constructor|]. cbn. assert (B : b <> NaN) by (intros ->; apply N; now left).
  destruct (xleb a b) eqn:E.
  - apply xleb_le in E; try assumption. constructor; [constructor; assumption|]. constructor; [exact E|]. eapply Forall_impl; [|exact F]. intros c Hc. now apply error_le_trans with b.
  - constructor; [apply IH; intros I; apply N; now right|]. apply (Permutation_Forall (xinsert_perm a l)). constructor; [|exact F].
    destruct (error_le_total a b A B) as [L|L]; [|exact L]. apply xleb_le in L; try assumption. congruence.
Qed.
Lemma xsort_sorted l : ~ In NaN l -> StronglySorted error_le (xsort l).
Proof.
  induction l as [|a l IH]; intros N; [constructor|]. cbn. apply xinsert_sorted.
  - intros ->. apply N. now left.
  - intros I. apply N. right. now apply (Permutation_in _ (Permutation_sym (xsort_perm l))).
  - apply IH. intros I. apply N. now right.
Qed.
Lemma existsb_nan l : existsb is_nan l = true <-> In NaN l.
Proof.
  rewrite existsb_exists. split; [intros [x [H E]]; destruct x; try discriminate; exact H|intros H; exists NaN; now split].
Qed.

Lemma median_spec l : l <> [] -> median_of l (median l).
Proof.
  intros NE. unfold median_of, median. destruct (existsb is_nan l) eqn:E; [left; apply existsb_nan in E; now split|].
  right. assert (N : ~ In NaN l) by (rewrite <- existsb_nan; congruence). split; [exact N|]. exists (xsort l). split; [apply xsort_perm|]. split; [now apply xsort_sorted|].
  assert (L : length (xsort l) = length l) by (symmetry; apply Permutation_length, xsort_perm).
  assert (Z : (length l <> 0)%nat) by (destruct l; [contradiction|discriminate]).
  assert (G : forall k, (k < length l)%nat -> nth k (xsort l) NaN <> NaN).
  { intros k Hk E'. apply N. rewrite <- E'. apply (Permutation_in _ (Permutation_sym (xsort_perm l))). apply nth_In. lia. }
  assert (G1 := G ((length l - 1) / 2)%nat ltac:(apply Nat.div_lt_upper_bound; lia)). assert (G2 := G (length l / 2)%nat ltac:(apply Nat.div_lt; lia)).
  destruct (nth ((length l - 1) / 2) (xsort l) NaN), (nth (length l / 2) (xsort l) NaN); try contradiction; reflexivity.
Qed.

Lemma npmax2_or a b : a <> NaN -> b <> NaN -> (npmax2 a b = a /\ error_le b a) \/ (npmax2 a b = b /\ error_le a b).
Proof.
  intros A B. destruct a as [x| |], b as [y| |]; try contradiction; cbn; try tauto.
  unfold Rmax. destruct (Rle_dec x y); [right; split; [reflexivity|assumption]|left; split; [reflexivity|lra]].
Qed.
Lemma npmax_largest l : l <> [] -> largest_of l (npmax l).
Proof.
  intros NE. destruct (in_dec (fun a b : xr => ltac:(clear; destruct a as [x| |], b as [y| |]; try (right; discriminate); try (left; reflexivity); destruct (Req_EM_T x y) as [E|E]; [left; now rewrite E|right; intros H; apply E; congruence]) : {a = b} + {a <> b}) NaN l) as [N|N].
  { left. split; [exact N|]. apply npmax_nan. now right. }
  right. split; [exact N|]. destruct l as [|a l]; [contradiction|]. cbn [npmax]. clear NE.
  assert (A : a <> NaN) by (intros ->; apply N; now left). assert (N' : ~ In NaN l) by (intros I; apply N; now right). clear N.
  revert a A. induction l as [|b l IH]; intros a A; cbn [fold_left].
  - split; [now left|]. intros e [<-|[]]. now apply error_le_refl.
  - assert (B : b <> NaN) by (intros ->; apply N'; now left).
    assert (M : npmax2 a b <> NaN) by (rewrite npmax2_nan; tauto).
    destruct (IH ltac:(intros I; apply N'; now right) _ M) as [I1 I2]. 
    destruct (npmax2_or a b A B) as [[E L]|[E L]]; rewrite E in *; (split; [cbn in *; tauto|]).
    + intros e [<-|[<-|H]]; [apply I2; now left|apply error_le_trans with a; [exact L|apply I2; now left]|apply I2; now right].
    + intros e [<-|[<-|H]]; [apply error_le_trans with b; [exact L|apply I2; now left]|apply I2; now left|apply I2; now right].
Qed.
Lemma capped_shown m : shown m (capped m).
Proof.
  unfold shown, capped, largest. replace 99999.999 with (99999999 / 1000) by lra. destruct m as [x| |]; cbn; try reflexivity.
  unfold Rltb, Rmin. destruct (Rlt_dec (99999999 / 1000) x), (Rle_dec x (99999999 / 1000)); try reflexivity; f_equal; lra.
Qed.
Lemma rel_is r v : error_is (xdiv (Cmod r) (Cmod v)) r v.
Proof.
  unfold xdiv, Reqb. destruct (Req_EM_T (Cmod v) 0) as [E|E].
  - apply Cmod_0_iff in E. destruct (Req_EM_T (Cmod r) 0) as [F|F].
    + apply Cmod_0_iff in F. now split.
    + split; [exact E|]. intros H. apply F. now apply Cmod_0_iff.
  - split; [intros H; apply E; now apply Cmod_0_iff|]. now field.
Qed.

(** The largest of several signals. *)
Lemma npmax_gt l s : xgt_r (npmax l) s = true -> exists a, In a l /\ xgt_r a s = true.
Proof.
  intros H. destruct l as [|a l]; [discriminate|]. destruct (npmax_largest (a :: l) ltac:(discriminate)) as [[_ E]|[_ [I _]]].
  - rewrite E in H. discriminate.
  - eauto.
Qed.
Definition nonneg (a : xr) : Prop := match a with Fin x => 0 <= x | _ => True end.
Lemma running_in Mx n : (forall k, nonneg (Mx k)) -> exists j, (j <= n)%nat /\ running Mx (S n) = Mx j.
Proof.
  intros P. induction n as [|n IH].
  - exists 0%nat. split; [lia|]. rewrite running_S. unfold running, pymax. cbn [seq fold_left]. specialize (P 0%nat).
    destruct (Mx 0%nat) as [x| |]; cbn; try reflexivity. unfold Rltb. destruct (Rlt_dec x 0); [cbn in P; lra|reflexivity].
  - rewrite running_S. unfold pymax. destruct (xgt _ _); [destruct IH as [j [Hj E]]; exists j; split; [lia|exact E]|exists (S n); split; [lia|reflexivity]].
Qed.
Lemma npmax_nonneg l : (forall a, In a l -> nonneg a) -> nonneg (npmax l).
Proof.
  intros H. destruct l as [|a l]; [exact I|]. destruct (npmax_largest (a :: l) ltac:(discriminate)) as [[_ E]|[_ [J _]]]; [rewrite E; exact I|now apply H].
Qed.
Lemma rel_nonneg err vj k i : nonneg (rel_error err vj k i).
Proof.
  unfold rel_error, xdiv. destruct (Reqb (Cmod (vj k i)) 0) eqn:E; [destruct (Reqb (Cmod (err k i)) 0); exact I|]. cbn. pose proof (Cmod_ge_0 (err k i)). pose proof (Cmod_ge_0 (vj k i)).
  unfold Reqb in E. destruct (Req_EM_T (Cmod (vj k i)) 0); [discriminate|]. apply Rmult_le_pos; [assumption|]. left. apply Rinv_0_lt_compat. lra.
Qed.
Lemma max_rel_gt num_n npts err vj s : (1 <= num_n)%nat -> xgt_r (max_rel_error num_n npts err vj) s = true ->
  exists k i, (k < num_n)%nat /\ (i < npts)%nat /\ xgt_r (rel_error err vj k i) s = true.
Proof.
  intros Hn H. rewrite max_rel_running in H. destruct num_n as [|n]; [lia|].
  destruct (running_in (fun k => npmax (map (rel_error err vj k) (seq 0 npts))) n) as [j [Hj E]].
  { intros k. apply npmax_nonneg. intros a Ha. apply in_map_iff in Ha. destruct Ha as [i [<- _]]. apply rel_nonneg. }
  rewrite E in H. apply npmax_gt in H. destruct H as [a [Ha G]]. apply in_map_iff in Ha. destruct Ha as [i [<- Hi]]. apply in_seq in Hi.
  exists j, i. split; [lia|]. split; [lia|exact G].
Qed.
Lemma xdiv_gt r v s : xgt_r (xdiv (Cmod r) (Cmod v)) s = true -> ~ (v = RtoC 0 /\ r = RtoC 0) /\ s * Cmod v < Cmod r.
Proof.
  intros H. pose proof (rel_is r v) as E. destruct (xdiv (Cmod r) (Cmod v)) as [x| |]; cbn in E, H; [| |discriminate].
  - destruct E as [E1 E2]. split; [tauto|]. rewrite E2. unfold Rltb in H. destruct (Rlt_dec s x); [|discriminate].
    apply Rmult_lt_compat_r; [|assumption]. pose proof (Cmod_ge_0 v). assert (Cmod v <> 0) by (intros Q; apply E1; now apply Cmod_0_iff). lra.
  - destruct E as [-> E2]. split; [tauto|]. rewrite Cmod_0, Rmult_0_r. pose proof (Cmod_ge_0 r). assert (Cmod r <> 0) by (intros Q; apply E2; now apply Cmod_0_iff). lra.
Qed.
