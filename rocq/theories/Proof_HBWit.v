(** Concrete runs of harmonic_balance used as witnesses. *)
From Coq Require Import List ZArith Lia Bool Arith Reals Lra String Permutation.
From Coquelicot Require Import Complex.
From Verif Require Import Base Sums Round Bessel Model_QtCurrent Spec_QtCurrent Spec_QtApi Proof_QtCurrent Proof_QtCurrent2 Proof_QtSym
  Proof_QtApi Proof_QtApi2 Proof_QtWit Model_Circuit Proof_Circuit Model_HB Spec_HB Proof_HB Proof_HB2 Proof_HB3 Proof_HB4.
Import ListNotations.
Open Scope C_scope.

(** ** Currents that vanish *)
Lemma rs_sum_zero ts : forall a rk, List.length a = List.length ts ->
  (forall ks, Forall2 (fun t k => (- Z.of_nat (t_b t) <= k <= Z.of_nat (t_b t))%Z) ts ks -> rk ks = RtoC 0) -> rs_sum ts a rk = RtoC 0.
Proof.
  induction ts as [|t ts IH]; intros a rk L H; [simpl; apply H; constructor|]. destruct a as [|a0 a]; [discriminate|]. cbn [rs_sum].
  apply csum_0. intros k Hk. apply in_sym in Hk. rewrite (IH a); [ring|now injection L|]. intros ks Hks. apply H. now constructor.
Qed.

Lemma current_zero P ts fs vb resp w :
  (forall ks, Forall2 (fun t k => (- Z.of_nat (t_b t) <= k <= Z.of_nat (t_b t))%Z) ts ks -> resp (vb + dot ks fs)%R = RtoC 0) ->
  current P ts fs vb resp w = RtoC 0.
Proof.
  intros H. unfold current. apply csum_0. intros a Ha. destruct (same_freq _ _); [|reflexivity].
  apply index_vectors_length in Ha. unfold coeff. rewrite !rs_sum_zero; try assumption; [|now rewrite map_length].
  destruct (forallb _ a); apply injective_projections; simpl; ring.
Qed.

Lemma current_at_no_response J q num_b v f p i : current_at J q (fun _ => RtoC 0) num_b v f p i = RtoC 0.
Proof. unfold current_at. apply current_zero. reflexivity. Qed.

(** ** A guess that meets the target is returned at once *)
Section Now.
Variable J : nat -> R -> R.
Variable inv : nat -> (nat -> nat -> R) -> option (nat -> nat -> R).

Lemma hb_start c resp num_b max_it stop g damp mode zj rm v o : some_impedance c -> h_wvt c = true ->
  interpolate_respfn (h_q c) resp num_b = Ok rm -> hb_loop J inv c resp num_b rm max_it stop damp g = (v, Ok o) ->
  r_ret (harmonic_balance J inv c resp num_b max_it stop (Some g) damp mode zj) = ret_of mode max_it (unflat (q_num_p (h_q c)) v) o /\
  r_cct (harmonic_balance J inv c resp num_b max_it stop (Some g) damp mode zj) = clamped c /\
  r_guess (harmonic_balance J inv c resp num_b max_it stop (Some g) damp mode zj) =
    Some (if is_view (q_num_f (h_q c)) (q_num_p (h_q c)) then write_back (q_num_p (h_q c)) g v else g).
Proof.
  intros Hz Hw ER HL. apply all_zero_false in Hz. unfold harmonic_balance. rewrite Hz, Hw, ER. cbn [negb].
  match goal with |- context [run_newton ?n ?p ?q ?i ?t ?z ?s ?d ?m ?x] =>
    change (run_newton n p q i t z s d m x) with (hb_loop J inv c resp num_b rm max_it stop damp g) end.
  rewrite HL. cbn [r_ret r_cct r_guess bind]. split; [reflexivity|]. split; [|reflexivity]. unfold clamped. now rewrite Hw.
Qed.

Lemma hb_immediate c resp num_b max_it stop (g : arr3) damp mode zj : simulates c num_b -> (0 <= max_it)%Z -> (0 <= stop)%R ->
  everywhere (h_q c) (fun f p i => g f p i <> RtoC 0) -> balanced J (clamped c) resp num_b stop g ->
  exists v o, agree (h_q c) g v /\ l_iter o = 0%Z /\ l_why o = Converged /\ (exists m, l_mask o = Some m) /\
  r_ret (harmonic_balance J inv c resp num_b max_it stop (Some g) damp mode zj) = ret_of mode max_it v o /\
  r_cct (harmonic_balance J inv c resp num_b max_it stop (Some g) damp mode zj) = clamped c.
Proof.
  intros [Ha [Hp [Hw Hz]]] Hm Hs Hnz Hb. destruct (matrix_built (h_q c) resp num_b Ha) as [rm ER].
  set (P := q_num_p (h_q c)). destruct (qt_for_hb J (h_q c) resp num_b rm (flat3 P g) Ha ER) as [ij [E _]].
  assert (Hag : agree (h_q c) (unflat P (flat3 P g)) g).
  { intros f p i [Hf Hp'] Hi. apply unflat_flat; [lia|exact Hp']. }
  assert (X : xle_r (rel_max (q_num_f (h_q c) * q_num_p (h_q c)) (q_npts (h_q c)) (flat2 P (clamp_vt (h_vt c))) (flat2 P (h_zt c)) ij (flat3 P g)) stop = true).
  { apply (rel_max_le_back J c resp num_b rm Ha ER); try assumption.
    - intros f p i H1 H2. fold P. rewrite (Hag f p i H1 H2). now apply Hnz.
    - intros f p i H1 H2. fold P. rewrite (residual_at_ext J (clamped c) resp num_b _ _ Hag f p i H1 H2). rewrite (Hag f p i H1 H2). now apply Hb. }
  pose proof (run_immediate _ (q_npts (h_q c)) (qt_current_for_hb J (h_q c) resp num_b (Some rm)) inv _ _ stop damp max_it (flat3 P g) ij Hm E X) as Run.
  destruct (hb_start c resp num_b max_it stop g damp mode zj rm _ _ Hz Hw ER Run) as [S1 [S2 _]].
  eexists. eexists. split; [apply agree_sym; exact Hag|].
  split; [|split; [|split; [|split; [exact S1|exact S2]]]]; [reflexivity|reflexivity|simpl; eauto].
Qed.
End Now.

(** ** One signal, no response: the junction draws no current *)
Definition w1 (vt zt : C) : hcct :=
  {| h_q := wit_cct 1; h_vt := fun f p => if ((f =? 1) && (p =? 1))%nat then vt else RtoC 0;
     h_zt := fun f p => if ((f =? 1) && (p =? 1))%nat then zt else RtoC 0; h_wvt := true |}.
Definition no_resp : R -> C := fun _ => RtoC 0.

Lemma w1_args vt zt : args_ok (h_q (w1 vt zt)) (NbInt 1).
Proof. apply wit_args; [lia|exact I]. Qed.
Lemma w1_simulates vt zt : zt <> RtoC 0 -> simulates (w1 vt zt) (NbInt 1).
Proof.
  intros Hz. split; [apply w1_args|]. split; [simpl; lia|]. split; [reflexivity|]. exists 1%nat, 1%nat. simpl. auto.
Qed.
Lemma w1_signal f p : signal (wit_cct 1) f p -> f = 1%nat /\ p = 1%nat.
Proof. intros [Hf Hp]. cbn [q_num_f q_num_p wit_cct] in *. lia. Qed.
Lemma source_big vt : (/ 10 ^ 10 <= Cmod vt)%R -> source vt = vt.
Proof. intros H. unfold source. destruct (Rlt_dec (Cmod vt) (/ 10 ^ 10)); [lra|reflexivity]. Qed.
Lemma w1_residual J vt zt v : residual_at J (clamped (w1 vt zt)) no_resp (NbInt 1) v 1 1 0 = source vt - v 1%nat 1%nat 0%nat.
Proof.
  unfold residual_at. cbn [h_vt h_zt h_q clamped w1]. rewrite clamp_source by lia. cbn [Nat.eqb andb]. unfold no_resp. rewrite current_at_no_response. ring.
Qed.

Lemma one_neq0 : RtoC 1 <> RtoC 0.
Proof. intros H. apply (f_equal fst) in H. simpl in H. lra. Qed.
Lemma big_1 : (/ 10 ^ 10 <= Cmod (RtoC 1))%R.
Proof. rewrite Cmod_1. lra. Qed.

(** Converged on the last allowed iteration, but reported as not converged. *)
Lemma flag_false_converged J inv : exists c num_b g v it,
  simulates c num_b /\
  r_ret (harmonic_balance J inv c no_resp num_b 0 (/ 10 ^ 3) (Some g) 1 "x" (RtoC 1)) = Ok (RetX v it false) /\
  everywhere (h_q c) (fun f p i => v f p i <> RtoC 0) /\
  balanced J (r_cct (harmonic_balance J inv c no_resp num_b 0 (/ 10 ^ 3) (Some g) 1 "x" (RtoC 1))) no_resp num_b (/ 10 ^ 3) v.
Proof.
  set (c := w1 (RtoC 1) (RtoC 1)). set (g := (fun _ _ _ => RtoC 1) : arr3).
  assert (Hs : simulates c (NbInt 1)) by (apply w1_simulates, one_neq0).
  assert (Hnz : everywhere (h_q c) (fun f p i => g f p i <> RtoC 0)) by (intros f p i _ _; apply one_neq0).
  assert (Hb : balanced J (clamped c) no_resp (NbInt 1) (/ 10 ^ 3) g).
  { intros f p i Hsig Hi. cbn [h_q clamped c w1] in Hsig, Hi. apply w1_signal in Hsig. destruct Hsig as [-> ->]. cbn [q_npts wit_cct] in Hi.
    assert (i = 0%nat) by lia. subst i. unfold c. rewrite w1_residual, (source_big _ big_1). unfold g.
    replace (RtoC 1 - RtoC 1) with (RtoC 0) by ring. rewrite Cmod_0, Cmod_1. lra. }
  destruct (hb_immediate J inv c no_resp (NbInt 1) 0 (/ 10 ^ 3) g 1 "x" (RtoC 1) Hs ltac:(lia) ltac:(lra) Hnz Hb) as [v [o [A [I [W [_ [R Cc]]]]]]].
  exists c, (NbInt 1), g, v, 0%Z. split; [assumption|].  rewrite R, Cc. unfold ret_of. rewrite I. cbn. split; [reflexivity|].
  split; [intros f p i H1 H2; rewrite <- (A f p i H1 H2); now apply Hnz|].
  intros f p i H1 H2. rewrite <- (residual_at_ext J (clamped c) no_resp (NbInt 1) _ _ A f p i H1 H2). rewrite <- (A f p i H1 H2). now apply Hb.
Qed.

(** No iterations allowed: nothing is computed, but the flag says converged. *)
Lemma flag_true_not_run J inv : exists c num_b g v it,
  simulates c num_b /\
  r_ret (harmonic_balance J inv c no_resp num_b (-1) (/ 10 ^ 3) (Some g) 1 "x" (RtoC 1)) = Ok (RetX v it true) /\
  everywhere (h_q c) (fun f p i => v f p i <> RtoC 0) /\
  ~ balanced J (r_cct (harmonic_balance J inv c no_resp num_b (-1) (/ 10 ^ 3) (Some g) 1 "x" (RtoC 1))) no_resp num_b (/ 10 ^ 3) v.
Proof.
  set (c := w1 (RtoC 1) (RtoC 1)). set (g := (fun _ _ _ => RtoC 5) : arr3).
  assert (Hs : simulates c (NbInt 1)) by (apply w1_simulates, one_neq0). pose proof Hs as [Ha [_ [Hw Hz]]].
  destruct (matrix_built (h_q c) no_resp (NbInt 1) Ha) as [rm ER].
  assert (Run : hb_loop J inv c no_resp (NbInt 1) rm (-1) (/ 10 ^ 3) 1 g = (flat3 1 g, Ok {| l_iter := 0; l_mask := None; l_why := RanOut |})).
  { unfold hb_loop. apply run_negative. lia. }
  destruct (hb_start J inv c no_resp (NbInt 1) (-1) (/ 10 ^ 3) g 1 "x" (RtoC 1) rm _ _ Hz Hw ER Run) as [S1 [S2 _]].
  exists c, (NbInt 1), g, (unflat 1 (flat3 1 g)), 0%Z. split; [assumption|]. rewrite S1, S2. split; [reflexivity|].
  assert (H5 : RtoC 5 <> RtoC 0) by (intros H; apply (f_equal fst) in H; simpl in H; lra).
  assert (G : unflat 1 (flat3 1 g) 1%nat 1%nat 0%nat = RtoC 5) by reflexivity.
  split.
  - intros f p i Hsig _. apply w1_signal in Hsig. destruct Hsig as [-> ->]. exact H5.
  - intros Hb. specialize (Hb 1%nat 1%nat 0%nat). cbv beta in Hb. unfold c in Hb. rewrite w1_residual, (source_big _ big_1), G in Hb.
    assert (Hb' : (Cmod (Cminus (RtoC 1) (RtoC 5)) <= / 10 ^ 3 * Cmod (RtoC 5))%R) by (apply Hb; [split; simpl; lia|simpl; lia]).
    rewrite <- RtoC_minus, !Cmod_R in Hb'. rewrite (Rabs_pos_eq 5), (Rabs_left (1 - 5)) in Hb' by lra. lra.
Qed.

(** With target 0 an exact solution is reported converged and rejected by the check. *)
Lemma check_rejects_converged J inv : exists c num_b g v it,
  simulates c num_b /\
  r_ret (harmonic_balance J inv c no_resp num_b 1 0 (Some g) 1 "x" (RtoC 1)) = Ok (RetX v it true) /\
  check_hb_error J v (r_cct (harmonic_balance J inv c no_resp num_b 1 0 (Some g) 1 "x" (RtoC 1))) no_resp num_b 0 = Err AssertionError.
Proof.
  set (c := w1 (RtoC 1) (RtoC 1)). set (g := (fun _ _ _ => RtoC 1) : arr3).
  assert (Hs : simulates c (NbInt 1)) by (apply w1_simulates, one_neq0).
  assert (Hnz : everywhere (h_q c) (fun f p i => g f p i <> RtoC 0)) by (intros f p i _ _; apply one_neq0).
  assert (Hb : balanced J (clamped c) no_resp (NbInt 1) 0 g).
  { intros f p i Hsig Hi. cbn [h_q clamped c w1] in Hsig, Hi. apply w1_signal in Hsig. destruct Hsig as [-> ->]. cbn [q_npts wit_cct] in Hi.
    assert (i = 0%nat) by lia. subst i. unfold c. rewrite w1_residual, (source_big _ big_1). unfold g.
    replace (RtoC 1 - RtoC 1) with (RtoC 0) by ring. rewrite Cmod_0, Cmod_1. lra. }
  destruct (hb_immediate J inv c no_resp (NbInt 1) 1 0 g 1 "x" (RtoC 1) Hs ltac:(lia) ltac:(lra) Hnz Hb) as [v [o [A [I [W [_ [R Cc]]]]]]].
  exists c, (NbInt 1), g, v, 0%Z. split; [assumption|]. rewrite R, Cc. unfold ret_of. rewrite I. cbn. split; [reflexivity|].
  apply check_spec; [apply w1_args|simpl; lia|]. intros H. specialize (H 1%nat 1%nat 0%nat). cbv beta in H.
  assert (H' : (Cmod (residual_at J (clamped c) no_resp (NbInt 1) v 1 1 0) < 0 * Cmod (v 1%nat 1%nat 0%nat))%R) by (apply H; [split; simpl; lia|simpl; lia]).
  pose proof (Cmod_ge_0 (residual_at J (clamped c) no_resp (NbInt 1) v 1 1 0)). lra.
Qed.

(** ** Jacobians *)
Definition part (r : nat) (z : C) : R := if (r =? 0)%nat then Re z else Im z.
Definition unit_of (s : nat) : C := if (s =? 0)%nat then RtoC 1 else Ci.

Lemma divmod2 q s : (s < 2)%nat -> ((2 * q + s) / 2 = q /\ (2 * q + s) mod 2 = s)%nat.
Proof.
  intros Hs. replace (2 * q + s)%nat with (s + q * 2)%nat by lia. rewrite Nat.div_add, Nat.mod_add by lia.
  rewrite Nat.div_small, Nat.mod_small by lia. lia.
Qed.

Section Jac.
Variables num_n npts : nat.
Variable qt : arr2 -> res arr2.
Variable inv : nat -> (nat -> nat -> R) -> option (nat -> nat -> R).
Variables vt zt : nat -> C.
Variables stop damp : R.
Variable max_it : Z.

Lemma mapM_total {A B} (f : A -> res B) l : (forall x, In x l -> exists y, f x = Ok y) -> exists ys, mapM f l = Ok ys.
Proof.
  induction l as [|x l IH]; intros H; [simpl; eauto|]. destruct (H x (or_introl eq_refl)) as [y E]. destruct IH as [ys E'].
  { intros; apply H; now right. } exists (y :: ys). cbn [mapM]. now rewrite E, E'.
Qed.

Lemma jac_exists cur v : (forall w, qt w = Ok (cur w)) ->
  exists jac, jacobian num_n qt vt zt (residual vt zt (cur v) v) v = Ok jac /\
  forall p q r s i, (p < num_n)%nat -> (q < num_n)%nat -> (r < 2)%nat -> (s < 2)%nat ->
    jac i (2 * p + r)%nat (2 * q + s)%nat =
    part r (- zt p * ((cur (bump (unit_of s) q v) p i - cur v p i) / RtoC DV) - (if (p =? q)%nat then unit_of s else RtoC 0)).
Proof.
  intros Hcur. unfold jacobian.
  rewrite (mapM_ok _ (fun q => (residual vt zt (cur (bump (RtoC 1) q v)) (bump (RtoC 1) q v), residual vt zt (cur (bump Ci q v)) (bump Ci q v)))).
  2:{ intros q _. rewrite !Hcur. reflexivity. }
  cbn [bind]. eexists. split; [reflexivity|]. intros p q r s i Hp Hq Hr Hs. cbv beta.
  destruct (divmod2 q s Hs) as [-> ->]. destruct (divmod2 p r Hr) as [-> ->].
  rewrite (map_nth_error _ _ _ (nth_error_seq _ _ Hq)). unfold jac_entry, part, residual.
  assert (HD := DV_neq0).
  assert (Q : forall u, (vt p - zt p * cur (bump u q v) p i - bump u q v p i - (vt p - zt p * cur v p i - v p i)) / RtoC DV =
       - zt p * ((cur (bump u q v) p i - cur v p i) / RtoC DV) - (if (p =? q)%nat then u else RtoC 0)).
  { intros u. assert (HB : bump u q v p i = v p i + (if (p =? q)%nat then u * RtoC DV else RtoC 0)).
    { unfold bump. destruct (p =? q)%nat; ring. }
    rewrite HB. destruct (p =? q)%nat; field; assumption. }
  unfold unit_of. destruct (s =? 0)%nat; rewrite Q; reflexivity.
Qed.

Lemma inv_jac_exists cur v : inverts inv -> (forall w, qt w = Ok (cur w)) ->
  (forall jac i, jacobian num_n qt vt zt (residual vt zt (cur v) v) v = Ok jac -> (i < npts)%nat -> exists N, right_inverse (2 * num_n) (jac i) N) ->
  exists js, inv_jacobian num_n npts qt inv vt zt (residual vt zt (cur v) v) v = Ok js.
Proof.
  intros [_ Hinv] Hcur H. destruct (jac_exists cur v Hcur) as [jac [E _]]. unfold inv_jacobian. rewrite E. cbn [bind].
  apply mapM_total. intros i Hi. apply in_seq in Hi. destruct (H jac i E) as [N HN]; [lia|].
  destruct (Hinv (2 * num_n)%nat (jac i)) as [N' E']; [eauto|]. rewrite E'. eauto.
Qed.
End Jac.

(** 2x2 blocks. *)
Lemma split4 a : (a < 4)%nat -> (a = 0 \/ a = 1 \/ a = 2 \/ a = 3)%nat.
Proof. lia. Qed.

Lemma right_inverse_2 M : M 0%nat 0%nat = (-1)%R -> M 0%nat 1%nat = 0%R -> M 1%nat 0%nat = 0%R -> M 1%nat 1%nat = (-1)%R ->
  exists N, right_inverse 2 M N.
Proof.
  intros H00 H01 H10 H11. exists (fun a b => if (a =? b)%nat then -1 else 0)%R. intros a c Ha Hc.
  assert (Ca : (a = 0 \/ a = 1)%nat) by lia. assert (Cc : (c = 0 \/ c = 1)%nat) by lia.
  destruct Ca as [-> | ->], Cc as [-> | ->]; cbn [rsum_to Nat.eqb]; rewrite ?H00, ?H01, ?H10, ?H11; ring.
Qed.

(** Rows 0 and 1 are those of -1; the lower right block is invertible. *)
Lemma right_inverse_4 M :
  (forall a b, (a < 2)%nat -> (b < 4)%nat -> M a b = if (a =? b)%nat then (-1)%R else 0%R) ->
  (M 2%nat 2%nat * M 3%nat 3%nat - M 2%nat 3%nat * M 3%nat 2%nat <> 0)%R ->
  exists N, right_inverse 4 M N.
Proof.
  intros H01 Hd. set (d := (M 2%nat 2%nat * M 3%nat 3%nat - M 2%nat 3%nat * M 3%nat 2%nat)%R) in *.
  set (i22 := (M 3%nat 3%nat / d)%R). set (i23 := (- M 2%nat 3%nat / d)%R). set (i32 := (- M 3%nat 2%nat / d)%R). set (i33 := (M 2%nat 2%nat / d)%R).
  exists (fun a b => match a, b return R with
    | O, O => Ropp 1 | S O, S O => Ropp 1
    | S (S O), O => i22 * M 2%nat 0%nat + i23 * M 3%nat 0%nat | S (S O), S O => i22 * M 2%nat 1%nat + i23 * M 3%nat 1%nat
    | S (S O), S (S O) => i22 | S (S O), S (S (S O)) => i23
    | S (S (S O)), O => i32 * M 2%nat 0%nat + i33 * M 3%nat 0%nat | S (S (S O)), S O => i32 * M 2%nat 1%nat + i33 * M 3%nat 1%nat
    | S (S (S O)), S (S O) => i32 | S (S (S O)), S (S (S O)) => i33
    | _, _ => R0 end)%R.
  intros a c Ha Hc. cbn [rsum_to].
  destruct (split4 a Ha) as [-> |[-> |[-> | ->]]]; rewrite ?(H01 0%nat), ?(H01 1%nat) by lia; cbn [Nat.eqb];
  destruct (split4 c Hc) as [-> |[-> |[-> | ->]]]; cbn [Nat.eqb]; unfold i22, i23, i32, i33; unfold d in *; field; assumption.
Qed.
